(** The pass inline preserves results. *)
From Verif Require Import EvalFacts Orders Compile CompileStatic Wf Vm OptEv OptRel OptWalk OptGood OptPasses OptLaws OptProg OptInline OptCopy OptRelD.
Set Implicit Arguments.

Lemma recs_weaken m e : recs m e = true -> recs false e = true.
Proof.
  assert (HL : forall es, Forall (fun e => recs m e = true -> recs false e = true) es -> forallb (recs m) es = true -> forallb (recs false) es = true).
  { induction 1; simpl; auto. rewrite !andb_true_iff. intuition. }
  induction e using expr_ind'; cbn [recs]; rewrite ?andb_true_iff; auto; try (intuition; fail).
  intros [[H1 H2] _]. repeat split; auto. rewrite forallb_forall in *. rewrite Forall_forall in H. auto.
Qed.

(** ** Nodes and their children *)
Definition own (e : expr) : list name :=
  match e with
  | ELam ps _ => map fst ps
  | EMatch _ bs => flat_map (fun br => snd (fst br)) bs
  | ELet n _ _ | ELetRec n _ _ _ => [n]
  | _ => []
  end.
Lemma map_snd_nil (l : list expr) : map snd (map (fun x => (@nil name, x)) l) = l.
Proof. induction l; simpl; congruence. Qed.
Lemma cnt_branches x (bs : list (name * list name * expr)) :
  cnt x (flat_map (fun br => snd (fst br) ++ binders (snd br)) bs) =
  cnt x (flat_map (fun br => snd (fst br)) bs) + cnt x (flat_map binders (map snd bs)).
Proof. induction bs as [|br bs IH]; simpl; auto. rewrite !cnt_app, IH. lia. Qed.
Lemma map_snd_brs (bs : list (name * list name * expr)) : map snd (map (fun br => (snd (fst br), snd br)) bs) = map snd bs.
Proof. rewrite map_map. auto. Qed.

Lemma kids_cnt x e : cnt x (binders e) = cnt x (own e) + cnt x (flat_map binders (map snd (kids e))).
Proof.
  destruct e; cbn [binders own kids map snd flat_map]; rewrite ?map_snd_nil, ?map_snd_brs, ?cnt_cons, ?cnt_app, ?cnt_nil, ?cnt_branches; try lia.
Qed.
Lemma kids_own e k x : In k (kids e) -> In x (fst k) -> In x (own e).
Proof.
  destruct e; cbn [kids own]; try contradiction; intros Hk Hx;
    repeat match goal with
    | H : In _ (_ :: _) |- _ => destruct H as [<-|H]
    | H : In _ [] |- _ => destruct H
    | H : In _ (map _ _) |- _ => apply in_map_iff in H as (? & <- & ?)
    end; simpl in *; auto; try contradiction.
  apply in_flat_map. eauto.
Qed.
Lemma fv_kids e S : (forall x, In x (fv e) -> In x S) -> forall k x, In k (kids e) -> In x (fv (snd k)) -> In x (fst k ++ S).
Proof.
  assert (HM : forall x xs l, (In x (minus l xs) -> In x S) -> In x l -> In x (xs ++ S)).
  { intros x xs l H Hx. apply in_app_iff. destruct (in_dec Nat.eq_dec x xs); auto. right; apply H; apply in_minus; auto. }
  destruct e; cbn [kids fv]; intros HS k y Hk Hy; try contradiction;
    repeat match goal with
    | H : In _ (_ :: _) |- _ => destruct H as [<-|H]
    | H : In _ [] |- _ => destruct H
    | H : In _ (map _ _) |- _ => apply in_map_iff in H as (? & <- & ?)
    end; cbn [fst snd app] in *; try (apply HS; rewrite ?in_app_iff; auto; fail); auto.
  - apply HS. apply in_or_app. right. apply in_flat_map. eauto.
  - apply HS. apply in_flat_map. eauto.
  - apply (HM y _ (fv e)); auto.
  - apply (HM y _ (fv (snd x))); auto. intros H1. apply HS. apply in_or_app; right. apply in_flat_map. eauto.
  - apply HS. apply in_flat_map. eauto.
  - apply (HM y [n] (fv e2)); auto. intros H1; apply HS; apply in_or_app; auto.
  - apply (HM y [n] (fv e1 ++ fv e2)); auto. apply in_or_app; auto.
  - apply (HM y [n] (fv e1 ++ fv e2)); auto. apply in_or_app; auto.
Qed.
Lemma kids_fv e S : (forall n, e <> EName n) -> (forall k x, In k (kids e) -> In x (fv (snd k)) -> In x (fst k ++ S)) -> forall x, In x (fv e) -> In x S.
Proof.
  assert (HM : forall x xs l, (forall y, In y l -> In y (xs ++ S)) -> In x (minus l xs) -> In x S).
  { intros x xs l H Hx. apply in_minus in Hx as [Hx Hn]. apply H in Hx. apply in_app_iff in Hx as []; tauto. }
  destruct e; cbn [kids fv]; intros Hn HS y Hy; try contradiction; rewrite ?in_app_iff in Hy.
  - exfalso; eapply Hn; eauto.
  - destruct Hy as [Hy|Hy]; [apply (HS ([], e)); simpl; auto|]. apply in_flat_map in Hy as (z & Hz & Hy).
    apply (HS ([], z)); simpl; auto. right. apply in_map_iff; eauto.
  - destruct Hy as [Hy|[Hy|Hy]]; [apply (HS ([], e1))|apply (HS ([], e2))|apply (HS ([], e3))]; simpl; auto.
  - destruct Hy as [Hy|Hy]; [apply (HS ([], e1))|apply (HS ([], e2))]; simpl; auto.
  - apply in_flat_map in Hy as (z & Hz & Hy). apply (HS ([], z)); simpl; auto. apply in_map_iff; eauto.
  - apply (HM y (map fst ps) (fv e)); auto. intros z Hz. apply (HS (map fst ps, e)); simpl; auto.
  - destruct Hy as [Hy|Hy]; [apply (HS ([], e)); simpl; auto|]. apply in_flat_map in Hy as (z & Hz & Hy).
    apply (HM y (snd (fst z)) (fv (snd z))); auto. intros w Hw. apply (HS (snd (fst z), snd z)); simpl; auto. right. apply in_map_iff; eauto.
  - apply in_flat_map in Hy as (z & Hz & Hy). apply (HS ([], z)); simpl; auto. apply in_map_iff; eauto.
  - destruct Hy as [Hy|Hy]; [apply (HS ([], e1)); simpl; auto|].
    apply (HM y [n] (fv e2)); auto. intros w Hw. apply (HS ([n], e2)); simpl; auto.
  - apply (HM y [n] (fv e1 ++ fv e2)); auto. intros w Hw. apply in_app_iff in Hw as [Hw|Hw]; [apply (HS ([n], e1))|apply (HS ([n], e2))]; simpl; auto.
  - apply (HS ([], e)); simpl; auto.
  - apply (HS ([], e)); simpl; auto.
Qed.
Lemma kids_recs m e : recs m e = true -> forall k, In k (kids e) -> recs m (snd k) = true.
Proof.
  destruct e; cbn [kids recs]; rewrite ?andb_true_iff; intros H k Hk; try contradiction;
    repeat match goal with
    | H : In _ (_ :: _) |- _ => destruct H as [<-|H]
    | H : In _ [] |- _ => destruct H
    | H : In _ (map _ _) |- _ => apply in_map_iff in H as (? & <- & ?)
    end; cbn [fst snd] in *; try (intuition; fail).
  - destruct H as [_ H]. rewrite forallb_forall in H. auto.
  - rewrite forallb_forall in H. auto.
  - destruct H as [[_ H] _]. rewrite forallb_forall in H. apply (H x); auto.
  - rewrite forallb_forall in H. auto.
Qed.

Ltac lens H := repeat match type of H with
  | length ?l = S _ => destruct l; simpl in H; [discriminate H|injection H as H]
  | length ?l = 0 => destruct l; simpl in H; [clear H|discriminate H]
  end.
Lemma combine_nil (a b : list expr) : length b = length a -> map (fun x => (@nil name, x)) b = combine (map fst (map (fun x : expr => (@nil name, x)) a)) b.
Proof. revert b. induction a as [|x a IH]; intros [|y b]; simpl; intros H; try discriminate; auto. f_equal; auto. Qed.
Lemma kids_rebuild e l : length l = length (kids e) -> kids (rebuild e l) = combine (map fst (kids e)) l /\ own (rebuild e l) = own e /\
  (forall n, e <> EName n -> rebuild e l <> EName n).
Proof.
  destruct e; cbn [kids length]; rewrite ?map_length; intros H; lens H; cbn [rebuild kids map fst combine own]; auto.
  - split; [|split; [auto|discriminate]]. f_equal. apply combine_nil; auto.
  - repeat split; auto; discriminate.
  - repeat split; auto; discriminate.
  - split; [|split; [auto|discriminate]]. apply combine_nil; auto.
  - repeat split; auto; discriminate.
  - split; [|split; [|discriminate]].
    + f_equal. revert l H. induction brs as [|b brs IH]; intros [|v l] H; simpl in *; try discriminate; auto. f_equal; auto.
    + revert l H. induction brs as [|b brs IH]; intros [|v l] H; simpl in *; try discriminate; auto. f_equal; auto.
  - split; [|split; [auto|discriminate]]. apply combine_nil; auto.
  - repeat split; auto; discriminate.
  - repeat split; auto; discriminate.
  - repeat split; auto; discriminate.
  - repeat split; auto; discriminate.
Qed.
Lemma map_snd_combine {A B} (a : list A) (b : list B) : length b = length a -> map snd (combine a b) = b.
Proof. revert b. induction a as [|x a IH]; intros [|y b]; simpl; intros H; try discriminate; auto. f_equal; auto. Qed.

(** ** The relation between a node and the same node with related children *)
Definition relL (S : list name) (I : name -> option expr) (e e' : expr) : Prop :=
  relD (holds S I) e e' /\
  (forall ps f, strip_pis e = ELam ps f -> exists ps' f', strip_pis e' = ELam ps' f' /\ map fst ps = map fst ps' /\ relD (holds S I) f f').

Lemma relL_refl S I e : relL S I e e.
Proof. split; [apply relD_refl|]. intros ps f E. exists ps, f. repeat split; auto. apply relD_refl. Qed.
Lemma relL_sub S S' I I' e e' : (forall r, holds S' I' r -> holds S I r) -> relL S I e e' -> relL S' I' e e'.
Proof.
  intros H [H1 H2]. split; [eapply relD_sub; eauto|]. intros ps f E. destruct (H2 _ _ E) as (ps' & f' & E' & Hp & Hf).
  exists ps', f'. repeat split; auto. eapply relD_sub; eauto.
Qed.
Lemma relL_head S I e e' : relD (holds S I) e e' -> (forall ps f, strip_pis e <> ELam ps f) -> relL S I e e'.
Proof. intros H1 H2. split; auto. intros ps f E. exfalso; eapply H2; eauto. Qed.
Lemma relL_nil es l S I : Forall2 (fun k e' => relL (fst k ++ S) I (snd k) e') (map (fun x => ([], x)) es) l -> Forall2 (relD (holds S I)) es l.
Proof.
  revert l. induction es as [|e es IH]; simpl; intros l H; inversion H; subst; auto. constructor; auto.
  match goal with H : relL _ _ _ _ |- _ => destruct H; auto end.
Qed.
Lemma holds_more S I r xs : (forall x, In x xs -> I x = None) -> holds S I r -> holds (xs ++ S) I r.
Proof.
  intros Hx H y E v Hy HI. apply in_app_iff in Hy as [Hy|Hy]; [rewrite Hx in HI by auto; discriminate|]. apply H; auto.
Qed.

Ltac rk := match goal with H : relL _ _ ?a ?b |- relD _ ?a ?b => apply H end.
Lemma relL_rebuild S I e l : closedI S I -> (forall x, In x (binders e) -> ~ In x S /\ I x = None) ->
  Forall2 (fun k e' => relL (fst k ++ S) I (snd k) e') (kids e) l -> relL S I e (rebuild e l).
Proof.
  intros Hc Hb H.
  destruct e; cbn [kids] in H;
    repeat match goal with H : Forall2 _ (_ :: _) _ |- _ => inversion H; clear H; subst end;
    try match goal with H : Forall2 _ [] _ |- _ => inversion H; clear H; subst end;
    cbn [rebuild fst snd app] in *; try apply relL_refl.
  - apply relL_head; [|discriminate]. apply relD_call; [rk|apply relL_nil; auto].
  - apply relL_head; [|discriminate]. apply relD_if; rk.
  - apply relL_head; [|discriminate]. apply relD_op; rk.
  - apply relL_head; [|discriminate]. apply relD_intr. apply relL_nil; auto.
  - assert (Hp : forall x, In x (map fst ps) -> ~ In x S /\ I x = None) by (intros x Hx; apply Hb; cbn [binders]; apply in_or_app; auto).
    split.
    + eapply relD_lam; [auto| |rk]. intros r vs Hl Hh. apply holds_add; auto. rewrite map_length; auto.
    + intros ps' f' Es. simpl in Es. injection Es as <- <-. exists ps, y. repeat split; auto.
      eapply relD_sub; [|rk]. intros r Hr. apply holds_more; auto. intros x Hx; apply Hp; auto.
  - apply relL_head; [|discriminate]. apply relD_match; [rk|].
    assert (Hp : forall br x, In br brs -> In x (snd (fst br)) -> ~ In x S /\ I x = None).
    { intros br x Hbr Hx. apply Hb. cbn [binders]. apply in_or_app; right. apply in_flat_map. exists br. split; auto. apply in_or_app; auto. }
    match goal with H : Forall2 _ (map _ _) _ |- _ => revert H end. clear Hb. revert l'. induction brs as [|br brs IH]; intros l' HF; inversion HF; subst; simpl; constructor.
    + split; auto. exists (holds (snd (fst br) ++ S) I). simpl in *. split; [|rk].
      intros r vs Hl Hh. apply holds_add; auto. intros x Hx. apply (Hp br); simpl; auto.
    + apply IH; auto. intros br' x Hbr. apply (Hp br'). simpl; auto.
  - apply relL_head; [|discriminate]. apply relD_construct. apply relL_nil; auto.
  - apply relL_head; [|discriminate]. destruct (Hb n) as [Hn1 Hn2]; [simpl; auto|].
    eapply relD_let; [rk| |rk]. intros r c v Hh _. apply holds_cons; auto.
  - apply relL_head; [|discriminate]. destruct (Hb n) as [Hn1 Hn2]; [simpl; auto|].
    destruct (strip_pis e1) as [| | | | | | | |ps f| | | | | | |] eqn:Es; try (apply relD_letrec_bad; intros ? ?; rewrite Es; discriminate).
    match goal with H : relL _ _ e1 _ |- _ => destruct H as [_ HS]; destruct (HS _ _ Es) as (ps' & f' & Es' & Hp & Hf) end.
    assert (Hps : forall x, In x (map fst ps) -> ~ In x S /\ I x = None).
    { intros x Hx. apply Hb. cbn [binders]. right. apply in_or_app; left. rewrite (strip_pis_binders _ Es). apply in_or_app; auto. }
    eapply relD_letrec; [exact Es|exact Es'|exact Hp| | |exact Hf|rk].
    + intros r vs w Hl Hh. assert (HA : holds (map fst ps ++ S) I (add_all r (map fst ps) vs)) by (apply holds_add; auto; rewrite map_length; auto).
      intros z E v Hz HI Hl' r' Ha. simpl in Hl'. destruct (Nat.eqb_spec z n) as [->|Hzn]; [congruence|].
      destruct Hz as [->|Hz]; [congruence|]. apply (HA z E v); auto; [apply in_or_app; auto|].
      intros u Hu. rewrite <- (Ha u Hu). simpl. destruct (Nat.eqb_spec u n) as [->|]; auto. exfalso; apply Hn1. eapply Hc; eauto.
    + intros r w Hh. apply holds_cons; auto.
  - match goal with H : relL _ _ _ _ |- _ => destruct H as [A1 A2] end. split; [apply relD_pi; auto|]. simpl. auto.
  - apply relL_head; [|discriminate]. apply relD_piapp. rk.
Qed.

Lemma recs_rebuild m e l : length l = length (kids e) -> recs m e = true -> Forall (fun e => recs m e = true) l ->
  (forall n t a b, e = ELetRec n t a b -> forall ps f, strip_pis a = ELam ps f -> exists ps' f', strip_pis (hd a l) = ELam ps' f') ->
  recs m (rebuild e l) = true.
Proof.
  intros H Hr Hl Hs.
  assert (HA : forall l, Forall (fun e => recs m e = true) l -> forallb (recs m) l = true) by (intros l0 H0; apply forallb_forall; rewrite Forall_forall in H0; auto).
  destruct e; cbn [kids length] in H; rewrite ?map_length in H; lens H; cbn [rebuild recs] in *; auto;
    repeat match goal with H : Forall _ (_ :: _) |- _ => inversion H; clear H; subst end; rewrite ?andb_true_iff in *; auto.
  - repeat split; auto. 2: destruct Hr as [_ Hr]; revert Hr.
    + clear - H H3. revert l H H3. induction brs as [|b brs IH]; intros [|v l] H H3; simpl in *; try discriminate; auto.
      inversion H3; subst. rewrite IH, andb_true_r; auto.
    + assert (E : map (fun br => fst (fst br)) (map (fun p : name * list name * expr * expr => (fst (fst p), snd p)) (combine brs l)) = map (fun br => fst (fst br)) brs).
      { clear - H. revert l H. induction brs as [|b brs IH]; intros [|v l] H; simpl in *; try discriminate; auto. f_equal; auto. }
      rewrite E. auto.
  - destruct Hr as [[R1 R2] R3]. repeat split; auto. destruct (strip_pis e1) eqn:Es; try discriminate.
    destruct (Hs _ _ _ _ eq_refl _ _ Es) as (? & ? & E). simpl in E. rewrite E. auto.
Qed.

Section Walk.
  Variable m : bool.
  Definition idx (s : ist) (x : name) : option expr := option_map fst (lookup x (i_map s)).

  Record Inv (S : list name) (s : ist) : Prop := {
    v_lt : forall x, In x S -> x < i_nn s;
    v_fv : closedI S (idx s);
    v_def : forall x E, In x S -> idx s x = Some E -> uq E /\ recs m E = true;
    v_new : forall x, i_nn s <= x -> idx s x = None
  }.
  Record Pre (S : list name) (s : ist) (F B : list name) : Prop := {
    p_fv : forall x, In x F -> In x S;
    p_cnt : forall x, cnt x B <= 1;
    p_bs : forall x, In x B -> ~ In x S /\ idx s x = None /\ x < i_nn s
  }.
  Record Res (S : list name) (s : ist) (e e' : expr) (s' : ist) : Prop := {
    r_rel : relL S (idx s) e e';
    r_nn : i_nn s <= i_nn s';
    r_fv : forall x, In x (fv e') -> In x S;
    r_cnt : forall x, cnt x (binders e') <= cnt x (binders e) + rng (i_nn s) (i_nn s') x;
    r_rec : recs m e' = true;
    r_idx : forall x, ~ In x (binders e') -> idx s' x = idx s x
  }.

  (** What is bound in the result. *)
  Lemma new_binders S s s' F B B' : Inv S s -> Pre S s F B -> (forall x, cnt x B' <= cnt x B + rng (i_nn s) (i_nn s') x) ->
    i_nn s <= i_nn s' -> (forall x, In x B' -> ~ In x S /\ idx s x = None /\ x < i_nn s') /\ (forall x, cnt x B' <= 1).
  Proof.
    intros [V1 V2 V3 V4] [P1 P2 P3] Hc Hn. split.
    - intros x Hx. apply cnt_in in Hx. specialize (Hc x). destruct (Nat.eq_dec (cnt x B) 0) as [E|E].
      + assert (Hr : rng (i_nn s) (i_nn s') x = 1) by (pose proof (rng_le (i_nn s) (i_nn s') x); lia).
        apply rng_1 in Hr. split; [intros Hi; apply V1 in Hi; lia|]. split; [apply V4; lia|lia].
      + destruct (P3 x) as (? & ? & ?); [apply cnt_in; lia|]. repeat split; auto. lia.
    - intros x. specialize (Hc x). specialize (P2 x). destruct (Nat.eq_dec (cnt x B) 0) as [E|E].
      + pose proof (rng_le (i_nn s) (i_nn s') x); lia.
      + destruct (P3 x) as (_ & _ & Hl); [apply cnt_in; lia|]. rewrite (@rng_0 (i_nn s) (i_nn s') x) in Hc by lia. lia.
  Qed.
  Lemma Inv_later S s s' B : Inv S s -> i_nn s <= i_nn s' -> (forall x, In x B -> ~ In x S /\ x < i_nn s') ->
    (forall x, ~ In x B -> idx s' x = idx s x) -> Inv S s' /\ forall x, In x S -> idx s' x = idx s x.
  Proof.
    intros [V1 V2 V3 V4] Hn Hb Hi.
    assert (HS : forall x, In x S -> idx s' x = idx s x) by (intros x Hx; apply Hi; intros Hx'; apply Hb in Hx'; tauto).
    split; auto. split.
    - intros x Hx. apply V1 in Hx. lia.
    - intros x E Hx. rewrite HS by auto. apply V2; auto.
    - intros x E Hx. rewrite HS by auto. apply V3; auto.
    - intros x Hx. destruct (in_dec Nat.eq_dec x B) as [Hd|Hd]; [apply Hb in Hd; lia|]. rewrite Hi by auto. apply V4; lia.
  Qed.
  Lemma Pre_later S s s' F B B1 : Pre S s F B -> i_nn s <= i_nn s' -> (forall x, ~ In x B1 -> idx s' x = idx s x) ->
    (forall x, In x B -> ~ In x B1) -> Pre S s' F B.
  Proof.
    intros [P1 P2 P3] Hn Hi Hd. split; auto. intros x Hx. destruct (P3 x Hx) as (? & ? & ?). repeat split; auto; [|lia].
    rewrite Hi; auto.
  Qed.
  Lemma Pre_sub S s F B F' B' : Pre S s F B -> (forall x, In x F' -> In x S) -> (forall x, cnt x B' <= cnt x B) -> Pre S s F' B'.
  Proof.
    intros [P1 P2 P3] Hf Hb. split; auto.
    - intros x. specialize (P2 x); specialize (Hb x); lia.
    - intros x Hx. apply P3. apply cnt_in. apply cnt_in in Hx. specialize (Hb x); lia.
  Qed.
  (** Going under a binder. *)
  Lemma Inv_under S s F B xs : Inv S s -> Pre S s F B -> (forall x, In x xs -> In x B) -> Inv (xs ++ S) s.
  Proof.
    intros [V1 V2 V3 V4] [P1 P2 P3] Hx. split; auto.
    - intros x H. apply in_app_iff in H as [H|H]; auto. apply P3; auto.
    - apply closedI_app; auto. intros x H. apply P3; auto.
    - intros x E H. apply in_app_iff in H as [H|H]; [|apply V3; auto].
      intros HI. destruct (P3 x) as (_ & E' & _); auto. congruence.
  Qed.
  Lemma Pre_under S s F B xs F' B' : Pre S s F B -> (forall x, In x F' -> In x (xs ++ S)) ->
    (forall x, cnt x xs + cnt x B' <= cnt x B) -> Pre (xs ++ S) s F' B'.
  Proof.
    intros [P1 P2 P3] Hf Hb. split; auto.
    - intros x. specialize (P2 x); specialize (Hb x); lia.
    - intros x Hx. assert (Hc := Hb x). apply cnt_in in Hx. destruct (P3 x) as (H1 & H2 & H3); [apply cnt_in; lia|].
      repeat split; auto. intros Hi. apply in_app_iff in Hi as [Hi|Hi]; auto. apply cnt_in in Hi. specialize (P2 x). lia.
  Qed.

  Definition Walk (w : ist -> expr -> option (expr * ist)) : Prop :=
    forall S s e e' s', Inv S s -> Pre S s (fv e) (binders e) -> recs m e = true -> w s e = Some (e', s') -> Res S s e e' s'.

  Lemma walk_kids w : Walk w -> forall ks S0 S s l s', omapS w s (map snd ks) = Some (l, s') ->
    (forall k, In k ks -> recs m (snd k) = true /\ Inv (fst k ++ S0) s /\ forall x, In x (fv (snd k)) -> In x (fst k ++ S0)) ->
    (forall k x, In k ks -> In x (flat_map binders (map snd ks)) -> ~ In x (fst k)) ->
    (forall x, In x S <-> In x S0) -> Inv S s ->
    Pre S s [] (flat_map binders (map snd ks)) ->
    Forall2 (fun k e' => relL (fst k ++ S0) (idx s) (snd k) e' /\ (forall x, In x (fv e') -> In x (fst k ++ S0)) /\ recs m e' = true) ks l /\
    i_nn s <= i_nn s' /\
    (forall x, cnt x (flat_map binders l) <= cnt x (flat_map binders (map snd ks)) + rng (i_nn s) (i_nn s') x) /\
    (forall x, ~ In x (flat_map binders l) -> idx s' x = idx s x).
  Proof.
    intros Hw ks S0 S. induction ks as [|[xs e] ks IH]; intros s l s' E Hk Hd HSS HI HP; simpl in E.
    - injection E as <- <-. split; auto. split; [auto|]. split; [|auto]. intros; simpl; apply Nat.le_0_l.
    - destruct (w s e) as [[e' s1]|] eqn:E1; simpl in E; [|discriminate].
      destruct (omapS w s1 (map snd ks)) as [[l2 s2]|] eqn:E2; simpl in E; [|discriminate]. injection E as <- <-.
      cbn [map snd flat_map] in *.
      destruct (Hk (xs, e)) as (K1 & K2 & K3); [simpl; auto|]. cbn [fst snd] in *.
      assert (P1 : Pre (xs ++ S0) s (fv e) (binders e)).
      { destruct HP as [Q1 Q2 Q3]. split; auto.
        - intros x. specialize (Q2 x). rewrite cnt_app in Q2. lia.
        - intros x Hx. destruct (Q3 x) as (Q4 & Q5 & Q6); [apply in_or_app; auto|]. repeat split; auto.
          intros Hi. apply in_app_iff in Hi as [Hi|Hi]; [|apply Q4, HSS; auto]. apply (Hd (xs, e) x); simpl; auto. apply in_or_app; auto. }
      destruct (Hw _ _ _ _ _ K2 P1 K1 E1) as [R1 R2 R3 R4 R5 R6].
      destruct (@new_binders S s s1 [] (binders e ++ flat_map binders (map snd ks)) (binders e') HI HP) as [N1 N2]; auto.
      { intros x. rewrite cnt_app. specialize (R4 x). lia. }
      assert (Hdis : forall x, In x (flat_map binders (map snd ks)) -> ~ In x (binders e')).
      { intros x Hx Hx'. apply cnt_in in Hx, Hx'. destruct HP as [_ Q2 Q3]. specialize (Q2 x). rewrite cnt_app in Q2.
        specialize (R4 x). destruct (Q3 x) as (_ & _ & Q4); [apply in_or_app; right; apply cnt_in; auto|].
        rewrite rng_0 in R4 by lia. lia. }
      assert (Hcl : forall k, In k ks -> forall x, In x (binders e') -> ~ In x (fst k ++ S0)).
      { intros k Hkk x Hx Hi. apply in_app_iff in Hi as [Hi|Hi]; [|apply (N1 x Hx); apply HSS; auto].
        destruct (Hk k) as (_ & K5 & _); [simpl; auto|].
        apply cnt_in in Hx. specialize (R4 x). destruct (Nat.eq_dec (cnt x (binders e)) 0) as [E0|E0].
        - assert (Hr : rng (i_nn s) (i_nn s1) x = 1) by (pose proof (rng_le (i_nn s) (i_nn s1) x); lia). apply rng_1 in Hr.
          assert (x < i_nn s) by (apply (v_lt K5); apply in_or_app; auto). lia.
        - apply (Hd k x); simpl; auto. apply in_or_app; left. apply cnt_in; lia. }
      destruct (@Inv_later S s s1 (binders e') HI) as [HI1 HS1]; auto; [intros x Hx; destruct (N1 x Hx) as (? & ? & ?); auto|].
      destruct (IH s1 l2 s2 E2) as (F1 & F2 & F3 & F4); auto.
      + intros k Hkk. destruct (Hk k) as (K4 & K5 & K6); [simpl; auto|]. split; auto. split; auto.
        apply (@Inv_later _ s s1 (binders e') K5); auto. intros x Hx. split; [eapply Hcl; eauto|]. apply N1; auto.
      + intros k x Hkk Hx. apply (Hd k); simpl; auto. apply in_or_app; auto.
      + eapply Pre_later; [eapply Pre_sub; [exact HP|contradiction|intros x; rewrite cnt_app; lia]|auto|exact R6|exact Hdis].
      + split; [|split; [lia|split]].
        * constructor; auto.
          assert (Hag : forall k, In k ks -> forall x, In x (fst k ++ S0) -> idx s1 x = idx s x).
          { intros k Hkk x Hx. apply R6. intros Hx'. eapply Hcl; eauto. }
          clear - F1 Hag. induction F1 as [|k e0 ks l0 (A1 & A2 & A3) _ IHF]; constructor; auto.
          -- split; [|auto]. eapply relL_sub; [|exact A1]. intros r. apply holds_sub. intros x Hx. split; auto. apply (Hag k); simpl; auto.
          -- apply IHF. intros k' Hk'. apply (Hag k'). simpl; auto.
        * intros x. rewrite !cnt_app, <- (@rng_split (i_nn s) (i_nn s1)) by lia. specialize (R4 x); specialize (F3 x); lia.
        * intros x Hx. rewrite in_app_iff in Hx. rewrite F4, R6; tauto.
  Qed.

  Lemma Forall2_map_fst {A B C} (R : A -> C -> Prop) (l : list A) (l' : list C) (f : A -> B) : Forall2 R l l' -> length l' = length (map f l).
  Proof. intros H. apply Forall2_len in H. rewrite map_length. auto. Qed.

  Lemma walk_node w S s e l s' : Walk w -> Inv S s -> Pre S s (fv e) (binders e) -> recs m e = true ->
    omapS w s (map snd (kids e)) = Some (l, s') -> Res S s e (rebuild e l) s'.
  Proof.
    intros Hw HI HP Hr E.
    assert (Hown : forall k x, In k (kids e) -> In x (fst k) -> In x (binders e)).
    { intros k x Hk Hx. apply cnt_in. rewrite kids_cnt. pose proof (kids_own _ _ _ Hk Hx) as Ho. apply cnt_in in Ho. lia. }
    destruct (@walk_kids w Hw (kids e) S S s l s' E) as (F1 & F2 & F3 & F4).
    - intros k Hk. split; [eapply kids_recs; eauto|]. split; [eapply Inv_under; eauto|].
      intros x. apply fv_kids with (e := e); auto. apply (p_fv HP).
    - intros k x Hk Hx Hi. pose proof (kids_own _ _ _ Hk Hi) as Ho. apply cnt_in in Hx, Ho.
      pose proof (p_cnt HP x). rewrite kids_cnt in H. lia.
    - tauto.
    - auto.
    - eapply Pre_sub; [exact HP|contradiction|]. intros x. rewrite kids_cnt. lia.
    - pose proof (Forall2_len F1) as Hlen. symmetry in Hlen. destruct (kids_rebuild _ _ Hlen) as (K1 & K2 & K3).
      assert (HB : forall x, cnt x (binders (rebuild e l)) = cnt x (own e) + cnt x (flat_map binders l)).
      { intros x. rewrite kids_cnt, K1, K2, map_snd_combine; auto. rewrite map_length; auto. }
      assert (HR : Forall2 (fun k e' => relL (fst k ++ S) (idx s) (snd k) e') (kids e) l) by (eapply Forall2_weak; [|exact F1]; intros a b (? & ? & ?); auto).
      split; auto.
      + apply relL_rebuild; auto; [apply (v_fv HI)|]. intros x Hx. destruct (p_bs HP x Hx) as (? & ? & ?); auto.
      + assert (Hne : (exists n, e = EName n) \/ (forall n, e <> EName n)) by (destruct e; eauto; right; discriminate).
        destruct Hne as [[n ->]|Hn].
        * simpl in *. destruct l; simpl in *; try discriminate. apply (p_fv HP).
        * apply kids_fv; [intros n; apply K3; auto|]. rewrite K1. intros k x Hk Hx.
          assert (HX : forall (A : Type) (ks : list (list name * expr)) l, Forall2 (fun k e' => relL (fst k ++ S) (idx s) (snd k) e' /\ (forall x, In x (fv e') -> In x (fst k ++ S)) /\ recs m e' = true) ks l ->
             In k (combine (map fst ks) l) -> In x (fst k ++ S)).
          { clear - Hx. intros _ ks l H. induction H as [|a b ks l (A1 & A2 & A3) _ IH]; simpl; [contradiction|].
            intros [<-|Hi]; auto. }
          apply (HX nat _ _ F1 Hk).
      + intros x. rewrite HB, kids_cnt. specialize (F3 x). lia.
      + apply recs_rebuild; auto.
        * clear - F1. induction F1 as [|a b ks l (A1 & A2 & A3) _ IH]; auto.
        * intros n t a b -> ps f Es. simpl in HR. inversion HR; subst. simpl in *. destruct H1 as [_ H1].
          destruct (H1 _ _ Es) as (ps' & f' & E' & _). eauto.
      + intros x Hx. apply F4. intros Hi. apply Hx. apply cnt_in. rewrite HB. apply cnt_in in Hi. lia.
  Qed.

  (** ** Replacing the head *)
  Lemma head_in e : forall n c, head_calls e = Some (n, c) -> In n (fv e) /\ (forall ps f, strip_pis e <> ELam ps f).
  Proof.
    induction e; simpl; intros x cc H; try discriminate.
    - injection H as <- <-. split; auto. discriminate.
    - destruct (head_calls e) as [[y d]|]; simpl in H; [|discriminate]. injection H as <- <-. destruct (IHe y d eq_refl).
      split; [apply in_or_app; auto|discriminate].
    - destruct (IHe _ _ H). split; auto. discriminate.
  Qed.
  Lemma put_head_ok e : forall n c D d, head_calls e = Some (n, c) -> relD D (EName n) d ->
    relD D e (put_head d e) /\ (forall x, In x (fv (put_head d e)) -> In x (fv d) \/ In x (fv e)) /\
    (forall x, cnt x (binders (put_head d e)) = cnt x (binders d) + cnt x (binders e)) /\
    (forall k, recs k d = true -> recs k e = true -> recs k (put_head d e) = true).
  Proof.
    induction e; simpl; intros x cc D d H Hd; try discriminate.
    - injection H as <- <-. repeat split; auto.
    - destruct (head_calls e) as [[y q]|]; simpl in H; [|discriminate]. injection H as <- <-.
      destruct (IHe y q D d eq_refl Hd) as (H1 & H2 & H3 & H4). split; [|split; [|split]].
      + apply relD_call; auto. clear. induction args; constructor; auto. apply relD_refl.
      + intros z. rewrite !in_app_iff. intros [Hz|Hz]; auto. destruct (H2 z Hz); auto.
      + intros z. rewrite !cnt_app, H3. lia.
      + intros k Hk. rewrite !andb_true_iff. intros []; auto.
    - destruct (IHe _ _ D d H Hd) as (H1 & H2 & H3 & H4). repeat split; auto. apply relD_piapp; auto.
  Qed.

  (** One call of [inline_functions] on something that is not a [let]. *)
  Lemma inline_step_ok S s e e' s' : Inv S s -> Pre S s (fv e) (binders e) -> recs m e = true -> (forall x a b, e <> ELet x a b) ->
    inline_functions s e = (e', s') ->
    (e' = e /\ s' = s) \/
    (relD (holds S (idx s)) e e' /\ (forall ps f, strip_pis e <> ELam ps f) /\ Inv S s' /\ Pre S s' (fv e') (binders e') /\ recs m e' = true /\
     i_map s' = i_map s /\ i_nn s <= i_nn s' /\ (forall x, cnt x (binders e') <= cnt x (binders e) + rng (i_nn s) (i_nn s') x)).
  Proof.
    intros HI HP Hr Hnl E. unfold inline_functions in E.
    assert (En : note_let s e = s) by (destruct e; auto; exfalso; eapply Hnl; eauto). rewrite En in E.
    destruct (head_calls e) as [[n calls]|] eqn:Eh; [|injection E as <- <-; auto].
    destruct (lookup n (i_map s)) as [[d c]|] eqn:El; [|injection E as <- <-; auto].
    destruct (c <=? calls); [|injection E as <- <-; auto].
    destruct (create_copy s d) as [d' s1] eqn:Ec. injection E as <- <-. right.
    destruct (head_in _ Eh) as [Hn Hs]. assert (HnS : In n S) by (apply (p_fv HP); auto).
    assert (Hd : idx s n = Some d) by (unfold idx; rewrite El; auto).
    destruct (@v_def _ _ HI _ _ HnS Hd) as [Hu Hrd].
    assert (Hfd : forall x, In x (fv d) -> In x S) by (apply (@v_fv _ _ HI _ _ HnS Hd)).
    destruct (@create_copy_ok s d d' s1) as (C1 & C2 & C3 & C4 & C5 & C6); auto.
    { intros x Hx. apply (v_lt HI). auto. }
    assert (Hix : forall x, idx s1 x = idx s x) by (intros x; unfold idx; rewrite C2; auto).
    destruct (put_head_ok e Eh (relD_inline HnS Hd C6)) as (H1 & H2 & H3 & H4).
    assert (Hc : forall x, cnt x (binders (put_head d' e)) <= cnt x (binders e) + rng (i_nn s) (i_nn s1) x).
    { intros x. rewrite H3. specialize (C3 x). lia. }
    destruct (@new_binders S s s1 _ _ _ HI HP Hc C1) as [N1 N2].
    split; [auto|]. split; [auto|]. split; [|split; [|split; [|split; [|split]]]]; auto.
    - apply (@Inv_later S s s1 (binders (put_head d' e)) HI); auto. intros x Hx. destruct (N1 x Hx) as (? & ? & ?); auto.
    - split; auto.
      + intros x Hx. destruct (H2 x Hx); auto. apply (p_fv HP); auto.
      + intros x Hx. rewrite Hix. auto.
  Qed.

  Lemma Res_trans S s e e1 s1 e2 s2 : relD (holds S (idx s)) e e1 -> (forall ps f, strip_pis e <> ELam ps f) -> i_map s1 = i_map s ->
    i_nn s <= i_nn s1 -> (forall x, cnt x (binders e1) <= cnt x (binders e) + rng (i_nn s) (i_nn s1) x) ->
    Res S s1 e1 e2 s2 -> Res S s e e2 s2.
  Proof.
    intros H1 H2 H3 H4 H5 [R1 R2 R3 R4 R5 R6].
    assert (Hix : forall x, idx s1 x = idx s x) by (intros x; unfold idx; rewrite H3; auto).
    split; auto; [|lia| |].
    - apply relL_head; auto. eapply relD_trans; [exact H1|]. eapply relD_sub; [|apply R1]. intros r. apply holds_sub. auto.
    - intros x. rewrite <- (@rng_split (i_nn s) (i_nn s1)) by lia. specialize (H5 x); specialize (R4 x); lia.
    - intros x Hx. rewrite R6; auto.
  Qed.


  Lemma cnt_le_app x (a b c : list name) : cnt x (a ++ b) <= cnt x (a ++ c ++ b).
  Proof. rewrite !cnt_app. lia. Qed.

  (** What a [let] whose value has been walked means for the map and the rest of it. *)
  Lemma let_facts S s x a b a' s1 : Inv S s -> Pre S s (fv (ELet x a b)) (binders (ELet x a b)) -> Res S s a a' s1 ->
    let s2 := note_let s1 (ELet x a' b) in
    Inv (x :: S) s2 /\ Pre (x :: S) s2 (fv b) (binders b) /\ (idx s2 x = None \/ idx s2 x = Some a') /\ (forall y, In y S -> idx s2 y = idx s y).
  Proof.
    intros HI HP [R1 R2 R3 R4 R5 R6] s2.
    assert (HPa : Pre S s (fv a) (binders a)).
    { eapply Pre_sub; [exact HP| |]. - intros y Hy. apply (p_fv HP). cbn [fv]. apply in_or_app; auto.
      - intros y. cbn [binders]. rewrite cnt_cons, cnt_app. lia. }
    assert (Hx : ~ In x S /\ idx s x = None /\ x < i_nn s) by (apply (p_bs HP); simpl; auto).
    destruct Hx as (Hx1 & Hx2 & Hx3).
    assert (Hcx : cnt x (binders a) = 0 /\ cnt x (binders b) = 0).
    { pose proof (p_cnt HP x) as H. cbn [binders] in H. rewrite cnt_cons, cnt_app in H. destruct (Nat.eq_dec x x); [|tauto]. cbn in H. rewrite ?Nat.eqb_refl in H. lia. }
    destruct (@new_binders S s s1 (fv a) (binders a) (binders a') HI HPa R4 R2) as [N1 N2].
    assert (Hxa' : ~ In x (binders a')).
    { intros H. apply cnt_in in H. specialize (R4 x). rewrite rng_0 in R4 by lia. lia. }
    assert (Hn2 : i_nn s2 = i_nn s1) by (unfold s2, note_let; destruct (check_inlinable a' false); auto).
    assert (Hi2 : forall y, y <> x -> idx s2 y = idx s1 y).
    { intros y Hy. unfold s2, note_let. destruct (check_inlinable a' false); auto. unfold set_inl, idx; simpl.
      destruct (Nat.eqb_spec y x); congruence. }
    assert (Hi2x : idx s2 x = None \/ idx s2 x = Some a').
    { unfold s2, note_let. destruct (check_inlinable a' false); [right|left; rewrite R6; auto]. unfold set_inl, idx; simpl. rewrite Nat.eqb_refl; auto. }
    assert (HSx : forall y, In y S -> y <> x) by (intros y Hy ->; auto).
    destruct (@Inv_later S s s1 (binders a') HI) as [HI1 HS1]; auto; [intros y Hy; destruct (N1 y Hy) as (? & ? & ?); auto|].
    assert (HI2 : Inv (x :: S) s2).
    { destruct HI1 as [V1 V2 V3 V4]. split.
      - intros y [<-|Hy]; [lia|]. rewrite Hn2; auto.
      - intros y D [<-|Hy] HD z Hz.
        + destruct Hi2x as [Hc|Hc]; rewrite Hc in HD; [discriminate|]. injection HD as <-. right; auto.
        + rewrite Hi2 in HD by auto. right. eapply V2; eauto.
      - intros y D [<-|Hy] HD.
        + destruct Hi2x as [Hc|Hc]; rewrite Hc in HD; [discriminate|]. injection HD as <-. split; auto. split; auto. split; [|eapply recs_weaken; eauto]. intros z Hz Hf. apply (N1 z Hz). auto.
        + rewrite Hi2 in HD by auto. eapply V3; eauto.
      - intros y Hy. rewrite Hi2 by lia. apply V4; lia. }
    assert (HPb : Pre (x :: S) s2 (fv b) (binders b)).
    { split.
      - intros y Hy. apply (fv_kids (ELet x a b) S (p_fv HP) ([x], b)); simpl; auto.
      - intros y. pose proof (p_cnt HP y) as H. cbn [binders] in H. rewrite cnt_cons, cnt_app in H. lia.
      - intros y Hy. assert (Hyx : y <> x) by (intros ->; apply cnt_in in Hy; lia).
        destruct (p_bs HP y) as (Q1 & Q2 & Q3); [cbn [binders]; right; apply in_or_app; auto|].
        assert (Hya : ~ In y (binders a')).
        { intros H. apply cnt_in in H, Hy. specialize (R4 y). rewrite rng_0 in R4 by lia.
          pose proof (p_cnt HP y) as Hc. cbn [binders] in Hc. rewrite cnt_cons, cnt_app in Hc. lia. }
        split; [|split].
        + intros [H|H]; auto.
        + rewrite Hi2, R6; auto.
        + lia. }
    split; [auto|]. split; [auto|]. split; [auto|]. intros y Hy. rewrite Hi2, HS1; auto.
  Qed.

  Lemma iwalk_let w S s x a b a' s1 b' s3 : Walk w -> Inv S s -> Pre S s (fv (ELet x a b)) (binders (ELet x a b)) -> recs m (ELet x a b) = true ->
    w s a = Some (a', s1) -> w (note_let s1 (ELet x a' b)) b = Some (b', s3) -> Res S s (ELet x a b) (ELet x a' b') s3.
  Proof.
    intros Hw HI HP Hr E1 E2.
    cbn [recs] in Hr. apply andb_true_iff in Hr as [Hra Hrb].
    assert (HPa : Pre S s (fv a) (binders a)).
    { eapply Pre_sub; [exact HP| |]. - intros y Hy. apply (p_fv HP). cbn [fv]. apply in_or_app; auto.
      - intros y. cbn [binders]. rewrite cnt_cons, cnt_app. lia. }
    pose proof (Hw _ _ _ _ _ HI HPa Hra E1) as HR.
    destruct (@let_facts S s x a b a' s1 HI HP HR) as (HI2 & HPb & Hi2x & HS2).
    assert (Hix : forall y, y <> x -> idx (note_let s1 (ELet x a' b)) y = idx s1 y).
    { intros y Hy. unfold note_let. destruct (check_inlinable a' false); auto. unfold set_inl, idx; simpl. destruct (Nat.eqb_spec y x); congruence. }
    assert (Hn2 : i_nn (note_let s1 (ELet x a' b)) = i_nn s1) by (unfold note_let; destruct (check_inlinable a' false); auto).
    set (s2 := note_let s1 (ELet x a' b)) in *. destruct HR as [R1 R2 R3 R4 R5 R6].
    assert (Hx : ~ In x S /\ idx s x = None /\ x < i_nn s) by (apply (p_bs HP); simpl; auto).
    destruct Hx as (Hx1 & Hx2 & Hx3).
    destruct (Hw _ _ _ _ _ HI2 HPb Hrb E2) as [T1 T2 T3 T4 T5 T6].
    split.
    - apply relL_head; [|discriminate]. eapply relD_let; [apply R1| |apply T1].
      intros r c v Hh He.
      assert (Hh2 : holds (x :: S) (fun y => idx s2 y) ((x, v) :: r)); [|exact Hh2].
      destruct Hi2x as [Hc|Hc].
      + apply holds_cons; auto.
        * intros y D Hy HD. rewrite HS2 in HD by auto. eapply (v_fv HI); eauto.
        * eapply holds_sub; [|exact Hh]. intros y Hy. split; auto.
      + eapply holds_sub; [|eapply holds_let with (I := idx s); [apply (v_fv HI)|exact Hx1|exact R3|exact Hh|exact He]].
        intros y Hy. split; auto. destruct (Nat.eqb_spec y x) as [->|Hyx]; auto. destruct Hy as [->|Hy]; [congruence|]. auto.
    - lia.
    - intros y. cbn [fv]. rewrite in_app_iff. intros [H|H]; auto. apply in_minus in H as [H H']. destruct (T3 y H) as [->|]; auto. exfalso; apply H'; simpl; auto.
    - intros y. cbn [binders]. rewrite !cnt_cons, !cnt_app. rewrite <- (@rng_split (i_nn s) (i_nn s1)) by lia.
      specialize (R4 y); specialize (T4 y). rewrite Hn2 in T4. lia.
    - cbn [recs]. rewrite R5, T5; auto.
    - intros y Hy. cbn [binders] in Hy. assert (Hyx : y <> x) by (intros ->; apply Hy; left; auto).
      rewrite T6, Hix, R6; auto; intros H; apply Hy; right; apply in_or_app; auto.
  Qed.

  (** A [let] that comes from a copied definition: only what follows it is walked. *)
  Lemma iwalk_let2 w S s x a b b' s3 : Walk w -> Inv S s -> Pre S s (fv (ELet x a b)) (binders (ELet x a b)) -> recs m (ELet x a b) = true ->
    w s b = Some (b', s3) -> Res S s (ELet x a b) (ELet x a b') s3.
  Proof.
    intros Hw HI HP Hr E2.
    cbn [recs] in Hr. apply andb_true_iff in Hr as [Hra Hrb].
    assert (Hx : ~ In x S /\ idx s x = None /\ x < i_nn s) by (apply (p_bs HP); simpl; auto).
    destruct Hx as (Hx1 & Hx2 & Hx3).
    assert (HI2 : Inv (x :: S) s) by (apply (@Inv_under S s _ _ [x] HI HP); intros y [<-|[]]; simpl; auto).
    assert (HPb : Pre (x :: S) s (fv b) (binders b)).
    { apply (@Pre_under S s _ _ [x] _ _ HP).
      - intros y Hy. apply (fv_kids (ELet x a b) S (p_fv HP) ([x], b)); simpl; auto.
      - intros y. cbn [binders]. rewrite !cnt_cons, cnt_app, cnt_nil. lia. }
    destruct (Hw _ _ _ _ _ HI2 HPb Hrb E2) as [T1 T2 T3 T4 T5 T6].
    split.
    - apply relL_head; [|discriminate]. eapply relD_let; [apply relD_refl| |apply T1].
      intros r c v Hh He. apply holds_cons; auto. apply (v_fv HI).
    - lia.
    - intros y. cbn [fv]. rewrite in_app_iff. intros [H|H]; auto.
      + apply (p_fv HP). cbn [fv]. apply in_or_app; auto.
      + apply in_minus in H as [H H']. destruct (T3 y H) as [->|]; auto. exfalso; apply H'; simpl; auto.
    - intros y. cbn [binders]. rewrite !cnt_cons, !cnt_app. specialize (T4 y). lia.
    - cbn [recs]. rewrite Hra, T5; auto.
    - intros y Hy. cbn [binders] in Hy. apply T6. intros H; apply Hy; right; apply in_or_app; auto.
  Qed.

  Lemma iwalk_ok n : Walk (iwalk n).
  Proof.
    induction n as [|n IH]; intros S s e e' s' HI HP Hr E; [discriminate|].
    assert (Hlet : (exists x a b, e = ELet x a b) \/ (forall x a b, e <> ELet x a b)) by (destruct e; try (right; discriminate); left; eauto).
    destruct Hlet as [(x & a & b & ->)|Hnl].
    - cbn [iwalk] in E. destruct (iwalk n s a) as [[a' s1]|] eqn:E1; simpl in E; [|discriminate].
      destruct (iwalk n (note_let s1 (ELet x a' b)) b) as [[b' s3]|] eqn:E2; simpl in E2; rewrite E2 in E; simpl in E; [|discriminate].
      injection E as <- <-. eapply iwalk_let; eauto.
    - assert (E' : (let (e2, s2) := inline_functions s e in
          match e2 with
          | ELet x a b => do (b', s3) <- iwalk n s2 b ; Some (ELet x a b', s3)
          | _ => do (l, s3) <- omapS (iwalk n) s2 (map snd (kids e2)) ; Some (rebuild e2 l, s3)
          end) = Some (e', s')).
      { cbn [iwalk] in E. destruct e; try exact E. exfalso; eapply Hnl; eauto. }
      clear E. destruct (inline_functions s e) as [e2 s2] eqn:Ef.
      assert (Hrest : forall e2, Inv S s2 -> Pre S s2 (fv e2) (binders e2) -> recs m e2 = true ->
         match e2 with
          | ELet x a b => do (b', s3) <- iwalk n s2 b ; Some (ELet x a b', s3)
          | _ => do (l, s3) <- omapS (iwalk n) s2 (map snd (kids e2)) ; Some (rebuild e2 l, s3)
          end = Some (e', s') -> Res S s2 e2 e' s').
      { clear - IH. intros e2 HI HP Hr E.
        assert (Hlet : (exists x a b, e2 = ELet x a b) \/ (forall x a b, e2 <> ELet x a b)) by (destruct e2; try (right; discriminate); left; eauto).
        destruct Hlet as [(x & a & b & ->)|Hnl].
        - destruct (iwalk n s2 b) as [[b' s3]|] eqn:E2; simpl in E; [|discriminate]. injection E as <- <-. eapply iwalk_let2; eauto.
        - assert (E' : (do (l, s3) <- omapS (iwalk n) s2 (map snd (kids e2)) ; Some (rebuild e2 l, s3)) = Some (e', s')).
          { destruct e2; try exact E. exfalso; eapply Hnl; eauto. }
          destruct (omapS (iwalk n) s2 (map snd (kids e2))) as [[l s3]|] eqn:El; simpl in E'; [|discriminate]. injection E' as <- <-.
          eapply walk_node; eauto. }
      destruct (@inline_step_ok S s e e2 s2 HI HP Hr Hnl Ef) as [[-> ->]|(H1 & H2 & H3 & H4 & H5 & H6 & H7 & H8)]; auto.
      eapply Res_trans; eauto.
  Qed.
End Walk.

(** ** Programs *)
Lemma relD_all2 D e e' r r' c v : relD D e e' -> (forall k, G idP k r r') -> D r' -> ev c r e v ->
  exists c' v', ev c' r' e' v' /\ forall j, V j v v'.
Proof.
  intros He HG HD Hev.
  assert (Hex : forall j, exists c' v', ev c' r' e' v' /\ V j v v').
  { intros j. destruct (He (j + c) r r' c v) as (c' & v' & E & HV); auto; [lia|].
    exists c', v'. split; auto. eapply V_mono; [|exact HV]; lia. }
  destruct (Hex 0) as (c' & v' & E & _). exists c', v'. split; auto. intros j.
  destruct (Hex j) as (c2 & v2 & E2 & HV). rewrite (ev_det E E2). auto.
Qed.

Lemma fv_scoped : forall e, forall S, (forall x, In x (fv e) -> In x S) -> scoped S e = true.
Proof.
  assert (HL : forall es, Forall (fun e => forall S, (forall x, In x (fv e) -> In x S) -> scoped S e = true) es ->
     forall S, (forall x, In x (flat_map fv es) -> In x S) -> forallb (scoped S) es = true).
  { induction 1 as [|e es He _ IH]; simpl; intros S Hs; auto. rewrite He, IH; auto; intros; apply Hs; apply in_or_app; auto. }
  assert (HM : forall S xs l, (forall x, In x (minus l xs) -> In x S) -> forall x, In x l -> In x (xs ++ S)).
  { intros S xs l H x Hx. apply in_app_iff. destruct (in_dec Nat.eq_dec x xs); auto. right; apply H; apply in_minus; auto. }
  intros e; induction e using expr_ind'; intros S Hs; cbn [scoped fv] in *; auto; rewrite ?andb_true_iff;
    try (repeat split; eauto using in_or_app; fail).
  - apply mem_In. apply Hs; simpl; auto.
  - repeat split; [apply IHe1|apply IHe2|apply IHe3]; auto; intros; apply Hs; rewrite !in_app_iff; auto.
  - split; [apply IHe; intros; apply Hs; apply in_or_app; auto|]. apply forallb_forall. intros br Hbr.
    rewrite Forall_forall in H. apply H; auto. apply HM. intros x Hx. apply Hs. apply in_or_app; right. apply in_flat_map. eauto.
  - split; [apply IHe1; intros; apply Hs; apply in_or_app; auto|]. apply IHe2. apply (HM S [n]). intros x Hx. apply Hs. apply in_or_app; auto.
  - assert (HX := HM S [n] _ Hs). split; [apply IHe1|apply IHe2]; intros x Hx; apply HX; apply in_or_app; auto.
Qed.

Definition bnd (ds : list valdef) : list name := def_names ds ++ flat_map (fun d => binders (vd_value d)) ds.
Lemma bnd_cons x d ds : cnt x (bnd (d :: ds)) = cnt x [vd_name d] + cnt x (binders (vd_value d)) + cnt x (bnd ds).
Proof.
  unfold bnd. change (def_names (d :: ds)) with ([vd_name d] ++ def_names ds). cbn [flat_map]. rewrite !cnt_app. lia.
Qed.

Lemma def_facts m S s d ds v s1 : Inv m S s -> (forall x, cnt x [vd_name d] + cnt x (binders (vd_value d)) + cnt x (bnd ds) <= 1) ->
  (forall x, In x [vd_name d] \/ In x (binders (vd_value d)) \/ In x (bnd ds) -> ~ In x S /\ idx s x = None /\ x < i_nn s) ->
  Pre S s (fv (vd_value d)) (binders (vd_value d)) -> Res m S s (vd_value d) v s1 ->
  let s2 := match (match check_inlinable v false with Some c => Some c | None => check_small v end) with Some c => set_inl s1 (vd_name d) v c | None => s1 end in
  Inv m (vd_name d :: S) s2 /\ (forall x, In x (bnd ds) -> ~ In x (vd_name d :: S) /\ idx s2 x = None /\ x < i_nn s2) /\
  (idx s2 (vd_name d) = None \/ idx s2 (vd_name d) = Some v) /\ (forall y, In y S -> idx s2 y = idx s y).
Proof.
  intros HI Hcc Hbb HP [R1 R2 R3 R4 R5 R6] s2.
    destruct (@new_binders m S s s1 _ _ _ HI HP R4 R2) as [N1 N2].
    set (x := vd_name d) in *. destruct (Hbb x) as (Hx1 & Hx2 & Hx3); [simpl; auto|].
    assert (Hcx : cnt x (binders (vd_value d)) = 0) by (specialize (Hcc x); rewrite cnt_cons, cnt_nil in Hcc; cbn in Hcc; rewrite ?Nat.eqb_refl in Hcc; destruct (Nat.eq_dec x x); [|tauto]; lia).
    assert (Hxv : ~ In x (binders v)).
    { intros H. apply cnt_in in H. specialize (R4 x). rewrite rng_0 in R4 by lia. lia. }
    assert (Hn2 : i_nn s2 = i_nn s1) by (unfold s2; destruct (match check_inlinable v false with Some c => Some c | None => check_small v end); auto).
    assert (Hi2 : forall y, y <> x -> idx s2 y = idx s1 y).
    { intros y Hy. unfold s2. destruct (match check_inlinable v false with Some c => Some c | None => check_small v end); auto. unfold set_inl, idx; simpl.
      destruct (Nat.eqb_spec y x); congruence. }
    assert (Hi2x : idx s2 x = None \/ idx s2 x = Some v).
    { unfold s2. destruct (match check_inlinable v false with Some c => Some c | None => check_small v end); [right|left; rewrite R6; auto].
      unfold set_inl, idx; simpl. rewrite Nat.eqb_refl; auto. }
    clearbody s2.
    assert (HSx : forall y, In y S -> y <> x) by (intros y Hy ->; auto).
    destruct (@Inv_later m S s s1 (binders v) HI) as [HI1 HS1]; auto; [intros y Hy; destruct (N1 y Hy) as (? & ? & ?); auto|].
    assert (Huq : uq v).
    { split; auto. split; [|eapply recs_weaken; eauto]. intros z Hz Hf. apply (N1 z Hz). auto. }
  split; [|split; [|split; [auto|intros y Hy; rewrite Hi2, HS1; auto]]].
  - destruct HI1 as [V1 V2 V3 V4]. split.
      + intros y [<-|Hy]; [lia|]. rewrite Hn2; auto.
      + intros y D [<-|Hy] HD z Hz.
        * destruct Hi2x as [Hd|Hd]; rewrite Hd in HD; [discriminate|]. injection HD as <-. right; auto.
        * rewrite Hi2 in HD by auto. right. eapply V2; eauto.
      + intros y D [<-|Hy] HD.
        * destruct Hi2x as [Hd|Hd]; rewrite Hd in HD; [discriminate|]. injection HD as <-. split; auto.
        * rewrite Hi2 in HD by auto. eapply V3; eauto.
      + intros y Hy. rewrite Hi2 by lia. apply V4; lia.
  - intros y Hy. destruct (Hbb y) as (Q1 & Q2 & Q3); auto.
      assert (Hyx : y <> x) by (intros ->; apply cnt_in in Hy; specialize (Hcc x); rewrite cnt_cons in Hcc; cbn in Hcc; rewrite ?Nat.eqb_refl in Hcc; destruct (Nat.eq_dec x x); [|tauto]; lia).
      assert (Hyv : ~ In y (binders v)).
      { intros H. apply cnt_in in H, Hy. specialize (R4 y). rewrite rng_0 in R4 by lia. specialize (Hcc y). lia. }
      split; [intros [H|H]; auto|]. split; [rewrite Hi2, R6; auto|lia].
Qed.
Lemma inline_defs_ok m fuel ds : forall S s ds' s', omapS (inline_def fuel) s ds = Some (ds', s') ->
  Inv m S s -> scoped_defs S ds = true -> forallb (fun d => recs m (vd_value d)) ds = true ->
  (forall x, cnt x (bnd ds) <= 1) -> (forall x, In x (bnd ds) -> ~ In x S /\ idx s x = None /\ x < i_nn s) ->
  Forall2 (fun d d' => vd_name d' = vd_name d /\ vd_export d' = vd_export d /\ vd_ty d' = vd_ty d) ds ds' /\
  i_nn s <= i_nn s' /\ (forall x, cnt x (bnd ds') <= cnt x (bnd ds) + rng (i_nn s) (i_nn s') x) /\
  scoped_defs S ds' = true /\ forallb (fun d => recs m (vd_value d)) ds' = true /\
  (forall r r' r1, (forall k, G idP k r r') -> holds S (idx s) r' -> evd r ds r1 -> exists r1', evd r' ds' r1' /\ forall k, G idP k r1 r1').
Proof.
  induction ds as [|d ds IH]; simpl omapS; intros S s ds' s' E HI Hs Hr Hc Hb.
  - injection E as <- <-. split; [constructor|]. split; [auto|]. split; [intros; simpl; lia|]. split; [auto|split; [auto|]].
    intros r r' r1 HG _ He. inversion He; subst. exists r'. split; [constructor|auto].
  - unfold inline_def in E at 1. destruct (iwalk fuel s (vd_value d)) as [[v s1]|] eqn:Ew; simpl in E; [|discriminate].
    match type of E with context [omapS _ ?q ds] => set (s2 := q) in * end.
    destruct (omapS (inline_def fuel) s2 ds) as [[ds2 s3]|] eqn:E2; simpl in E; [|discriminate]. injection E as <- <-.
    simpl in Hs, Hr. apply andb_true_iff in Hs as [Hs1 Hs2]. apply andb_true_iff in Hr as [Hr1 Hr2].
    assert (Hcc : forall x, cnt x [vd_name d] + cnt x (binders (vd_value d)) + cnt x (bnd ds) <= 1) by (intros x; rewrite <- bnd_cons; auto).
    assert (Hbb : forall x, In x [vd_name d] \/ In x (binders (vd_value d)) \/ In x (bnd ds) -> ~ In x S /\ idx s x = None /\ x < i_nn s).
    { intros x Hx. apply Hb. apply cnt_in. rewrite bnd_cons. destruct Hx as [Hx|[Hx|Hx]]; apply cnt_in in Hx; lia. }
    assert (HP : Pre S s (fv (vd_value d)) (binders (vd_value d))).
    { split; [apply scoped_fv; auto|intros x; specialize (Hcc x); lia|]. intros x Hx. apply Hbb; auto. }
    pose proof (@iwalk_ok m fuel S s (vd_value d) v s1 HI HP Hr1 Ew) as HR.
    destruct (@def_facts m S s d ds v s1 HI Hcc Hbb HP HR) as (HI2 & Hb2 & Hi2x & Hi2). fold s2 in HI2, Hb2, Hi2x, Hi2.
    destruct HR as [R1 R2 R3 R4 R5 R6].
    assert (Hn2 : i_nn s2 = i_nn s1) by (unfold s2; destruct (match check_inlinable v false with Some c => Some c | None => check_small v end); auto).
    set (x := vd_name d) in *. destruct (Hbb x) as (Hx1 & Hx2 & Hx3); [simpl; auto|].
    clearbody s2.
    destruct (IH (x :: S) s2 ds2 s3 E2) as (I1 & I2 & I3 & I4 & I5 & I6); auto.
    + intros y. specialize (Hcc y). lia.
    + split; [constructor; auto|]. split; [lia|]. split; [|split; [|split]].
      * intros y. rewrite !bnd_cons. cbn [vd_name vd_value]. rewrite <- (@rng_split (i_nn s) (i_nn s1)) by lia.
        specialize (R4 y); specialize (I3 y). rewrite Hn2 in I3. fold x. lia.
      * simpl. fold x. rewrite I4, andb_true_r. apply fv_scoped; auto.
      * simpl. rewrite R5, I5. auto.
      * intros r r' r1 HG Hh He. apply evd_cons_inv in He as (c & w & H1 & H2). fold x in H2.
        destruct (relD_all2 (proj1 R1) HG Hh H1) as (c' & w' & E' & HV).
        destruct (I6 ((x, w) :: r) ((x, w') :: r') r1) as (r1' & E3 & HG3); auto.
        -- intros k. eapply G_sub; [|apply G_ext; eauto]. apply idP_ext.
        -- destruct Hi2x as [Hd|Hd].
           ++ assert (HX : holds (x :: S) (fun y => idx s2 y) ((x, w') :: r')); [|exact HX]. apply holds_cons; auto.
              ** intros y D Hy HD. rewrite Hi2 in HD by auto. eapply (v_fv HI); eauto.
              ** eapply holds_sub; [|exact Hh]. intros y Hy. split; auto.
           ++ eapply holds_sub; [|eapply holds_let with (I := idx s); [apply (v_fv HI)|exact Hx1|exact R3|exact Hh|exact E']].
              intros y Hy. split; auto. destruct (Nat.eqb_spec y x) as [->|Hyx]; auto. destruct Hy as [->|Hy]; [congruence|]. auto.
        -- exists r1'. split; auto. econstructor; eauto.
Qed.

(** All the names of a program come before the ones the generator gives out next. *)
Definition names_below (nn : nat) (p : program) : Prop := forall x, In x (bnd (p_defs p)) -> x < nn.

Theorem inline_ok fuel nn nt p p' nn' nt' exprs : ok_names p -> names_below nn p -> inline_fuel fuel nn nt p = Some (p', (nn', nt')) ->
  results_kept p p' exprs /\ ok_names p' /\ nn <= nn' /\ names_below nn' p' /\ p_types p' = p_types p /\
  Forall2 (fun d d' => vd_name d' = vd_name d /\ vd_export d' = vd_export d /\ vd_ty d' = vd_ty d) (p_defs p) (p_defs p') /\
  (forall m, forallb (fun d => recs m (vd_value d)) (p_defs p) = true -> forallb (fun d => recs m (vd_value d)) (p_defs p') = true).
Proof.
  intros (O1 & O2 & O3) Hb H. unfold inline_fuel in H.
  destruct (omapS _ _ _) as [[ds s]|] eqn:E; simpl in H; [|discriminate]. injection H as <- <- <-.
  assert (HC : forall x, cnt x (bnd (p_defs p)) <= 1).
  { intros x. apply (NoDup_count_occ Nat.eq_dec) with (x := x) in O2. exact O2. }
  assert (HX : forall m, forallb (fun d => recs m (vd_value d)) (p_defs p) = true -> _) by
   (intros m Hm; refine (@inline_defs_ok m _ (p_defs p) [] _ ds s E _ O1 Hm HC _);
    [split; simpl; try contradiction; [intros ? ? []|auto]|simpl; intros x Hx; repeat split; auto]).
  destruct (HX false O3) as (A1 & A2 & A3 & A4 & A5 & A6). simpl in *.
  assert (HB : forall x, cnt x (bnd ds) <= 1 /\ (In x (bnd ds) -> x < i_nn s)).
  { intros x. specialize (A3 x). destruct (Nat.eq_dec (cnt x (bnd (p_defs p))) 0) as [E0|E0].
    - pose proof (rng_le nn (i_nn s) x). split; [lia|]. intros Hx. apply cnt_in in Hx.
      assert (Hrg : rng nn (i_nn s) x = 1) by lia. apply rng_1 in Hrg. lia.
    - assert (x < nn) by (apply Hb; apply cnt_in; lia). rewrite rng_0 in A3 by lia. split; [specialize (HC x); lia|lia]. }
  split; [|split; [split; [auto|split; [|auto]]|split; [auto|split; [|split; [auto|split; [auto|]]]]]].
  - intros n vs Ht. apply treewalk_ev in Ht as (r & c & H1 & H2).
    destruct (A6 [] [] r (fun k => @G_nil _ _ _)) as (r' & H1' & HG); auto; [intros ? ? ? []|].
    assert (Hes : Forall2 (rel idP) exprs exprs) by (clear; induction exprs; constructor; auto using rel_refl).
    destruct (rels_all Hes HG H2) as (c' & vs' & H2' & HV).
    destruct (@ev_treewalk (mkProgram (p_types p) ds) exprs r' c' vs' H1' H2') as [m Hm]. exists m, vs'. split; auto. apply (@Vs_obs _ _ _ (HV 0)).
  - apply (NoDup_count_occ Nat.eq_dec). intros x. apply HB.
  - intros x. apply HB.
  - intros m Hm. destruct (HX m Hm) as (_ & _ & _ & _ & B5 & _). auto.
Qed.
