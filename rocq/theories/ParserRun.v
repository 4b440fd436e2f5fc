(** Every parsing function returns, consumes what it says and leaves events that describe trees. *)
From Verif Require Import Parser ParserSpec ParserProofs.
Set Implicit Arguments.

Definition wp {A} (m : M A) (p : pstate) (Q : A -> pstate -> Prop) : Prop :=
  match m p with Ok (a, p') => Q a p' | Panic => False | Fuel => False end.

Arguments wp : simpl never.
Lemma wp_bind A B (m : M A) (f : A -> M B) p Q : wp m p (fun a p' => wp (f a) p' Q) -> wp (bind m f) p Q.
Proof. unfold wp, bind. destruct (m p) as [[a p']| |]; auto. Qed.
Lemma wp_ret A (a : A) p (Q : A -> pstate -> Prop) : Q a p -> wp (ret a) p Q.
Proof. auto. Qed.
Lemma wp_mono A (m : M A) p (Q Q' : A -> pstate -> Prop) : wp m p Q -> (forall a p', Q a p' -> Q' a p') -> wp m p Q'.
Proof. unfold wp. destruct (m p) as [[a p']| |]; auto. Qed.
Lemma wp_seq A B (m : M A) (f : A -> M B) p (Q : A -> pstate -> Prop) (Q' : B -> pstate -> Prop) :
  wp m p Q -> (forall a p', Q a p' -> wp (f a) p' Q') -> wp (bind m f) p Q'.
Proof. intros H1 H2. apply wp_bind. eapply wp_mono; eauto. Qed.

(** ** The relation between the states before and after *)

Definition nt (ts : list token) : list token := filter (fun t => negb (trivia (fst t))) ts.
Definition tlen (ts : list token) : nat := length (concat (map snd ts)).
Definition next (p : pstate) : option kind := head_kind (nt (toks p)).
Definition cnt (p : pstate) : nat := length (nt (toks p)).
Definition yields (l : list elem) : list kind := flat_map yield l.
Fixpoint errs (e : elem) : list (nat * nat) := match e with Tok _ => [] | Err s => [s] | Node _ l => flat_map errs l end.
Definition within (lo hi : nat) (s : nat * nat) : Prop := lo <= fst s /\ fst s <= snd s /\ snd s <= hi.

Record Base (p p' : pstate) (out : list elem) (used : list token) : Prop := {
  b_toks : toks p = used ++ toks p';
  b_off : off p' = off p + tlen used;
  b_yield : yields out = map fst (nt used);
  b_grp : Forall ginner out;
  b_cur : cur p <= off p ->
    cur p <= cur p' /\ cur p' <= off p' /\ Forall (within (cur p) (off p + tlen (toks p))) (flat_map errs out)
}.

Definition R (p p' : pstate) (out : list elem) : Prop :=
  exists new used, Base p p' out used /\ evs p' = evs p ++ new /\ seg (length (evs p)) new out.
Definition RC (p p' : pstate) (m : nat) (t : elem) : Prop :=
  exists C CL sp idx ks tl used, Base p p' [t] used /\ evs p' = evs p ++ C None /\
    chain (length (evs p)) C CL sp idx m ks tl t.
Definition Rx (p p' : pstate) : Prop := exists out, R p p' out.

Lemma nt_app a b : nt (a ++ b) = nt a ++ nt b.
Proof. apply filter_app. Qed.
Lemma tlen_app a b : tlen (a ++ b) = tlen a + tlen b.
Proof. unfold tlen. rewrite map_app, concat_app, app_length. auto. Qed.
Lemma yields_app a b : yields (a ++ b) = yields a ++ yields b.
Proof. apply flat_map_app. Qed.

Lemma base_trans p p1 p2 o1 o2 u1 u2 : Base p p1 o1 u1 -> Base p1 p2 o2 u2 -> Base p p2 (o1 ++ o2) (u1 ++ u2).
Proof.
  intros [A1 A2 A3 A4 A5] [B1 B2 B3 B4 B5]. constructor.
  - rewrite A1, B1, app_assoc. auto.
  - rewrite tlen_app. lia.
  - rewrite yields_app, nt_app, map_app. rewrite A3, B3; auto.
  - apply Forall_app; auto.
  - intros H. destruct (A5 H) as (C1 & C2 & C3). destruct (B5 C2) as (D1 & D2 & D3). split; [lia|]. split; auto.
    rewrite flat_map_app. apply Forall_app. split; auto. eapply Forall_impl; [|exact D3].
    intros s [E1 [E2 E3]]. split; [lia|]. split; auto. rewrite A1, tlen_app. lia.
Qed.
Lemma base_refl p p' : toks p' = toks p -> off p' = off p -> cur p' = cur p -> Base p p' [] [].
Proof.
  intros E1 E2 E3. constructor; cbn; auto.
  - rewrite E2. lia.
  - intros H. split; [lia|]. split; [lia|]. auto.
Qed.
Lemma base_wrap p p' out used k : Base p p' out used -> ginner (Node k out) -> Base p p' [Node k out] used.
Proof.
  intros [A1 A2 A3 A4 A5] Hg. constructor; auto.
  - cbn. rewrite app_nil_r. auto.
  - intros H. cbn. rewrite app_nil_r. auto.
Qed.
(** Only positions and tokens matter. *)
Definition same (p p' : pstate) : Prop := toks p' = toks p /\ off p' = off p /\ cur p' = cur p.
Lemma base_same_r p p1 p2 out used : Base p p1 out used -> same p1 p2 -> Base p p2 out used.
Proof. intros [A1 A2 A3 A4 A5] (E1 & E2 & E3). constructor; rewrite ?E1, ?E2, ?E3; auto. Qed.
Lemma base_same_l p p1 p2 out used : Base p p1 out used -> same p2 p -> Base p2 p1 out used.
Proof. intros [A1 A2 A3 A4 A5] (E1 & E2 & E3). constructor; rewrite <- ?E1, <- ?E2, <- ?E3; auto. Qed.

Lemma seg_app o a la : seg o a la -> forall b lb, seg (o + length a) b lb -> seg o (a ++ b) (la ++ lb).
Proof.
  revert o a la. apply (@seg_ind2 (fun o a la => forall b lb, seg (o + length a) b lb -> seg o (a ++ b) (la ++ lb)) (fun _ _ _ _ _ _ _ _ _ => True)); cbn; auto.
  - intros o b lb H. rewrite Nat.add_0_r in H. auto.
  - intros o k es l _ IH b lb H. constructor. apply IH. rewrite Nat.add_succ_r in H. auto.
  - intros o k es l _ IH b lb H. constructor. apply IH. rewrite Nat.add_succ_r in H. auto.
  - intros o C CL sp idx top ks tl t es l Hc _ _ IH b lb H. rewrite <- app_assoc.
    eapply seg_chain; eauto. apply IH. rewrite app_length in H. rewrite <- Nat.add_assoc. auto.
Qed.

Lemma R_trans p p1 p2 o1 o2 : R p p1 o1 -> R p1 p2 o2 -> R p p2 (o1 ++ o2).
Proof.
  intros (n1 & u1 & B1 & E1 & S1) (n2 & u2 & B2 & E2 & S2). exists (n1 ++ n2), (u1 ++ u2). split; [eapply base_trans; eauto|].
  split; [rewrite E2, E1, app_assoc; auto|]. apply seg_app; auto. rewrite E1, app_length in S2. auto.
Qed.
Lemma R_refl p p' : same p p' -> evs p' = evs p -> R p p' [].
Proof.
  intros (A & B & C) E. exists [], []. split; [apply base_refl; auto|]. rewrite app_nil_r. split; auto. constructor.
Qed.
Lemma RC_R p p' m t : RC p p' m t -> R p p' [t].
Proof.
  intros (C & CL & sp & idx & ks & tl & used & B & E & H). exists (C None), used. split; auto. split; auto.
  rewrite <- (app_nil_r (C None)) at 1. eapply seg_chain; eauto. constructor.
Qed.
Lemma RC_Rx p p' m t : RC p p' m t -> Rx p p'.
Proof. intros H. eexists. eapply RC_R; eauto. Qed.
Lemma Rx_trans p p1 p2 : Rx p p1 -> Rx p1 p2 -> Rx p p2.
Proof. intros [o1 H1] [o2 H2]. exists (o1 ++ o2). eapply R_trans; eauto. Qed.
Lemma R_Rx p p' out : R p p' out -> Rx p p'.
Proof. eexists; eauto. Qed.

Lemma R_nt p p' out : R p p' out -> map fst (nt (toks p)) = yields out ++ map fst (nt (toks p')).
Proof. intros (n & u & B & _). rewrite (b_toks B), nt_app, map_app, (b_yield B). auto. Qed.
Lemma R_cnt p p' out : R p p' out -> cnt p = length (yields out) + cnt p'.
Proof. intros H. apply R_nt in H. apply (f_equal (@length _)) in H. rewrite app_length, !map_length in H. auto. Qed.
Lemma Rx_cnt p p' : Rx p p' -> cnt p' <= cnt p.
Proof. intros [o H]. rewrite (R_cnt H). lia. Qed.
Lemma next_map p : next p = hd_error (map fst (nt (toks p))).
Proof. unfold next. destruct (nt (toks p)) as [|[k t] l]; auto. Qed.
Lemma R_next0 p p' out : R p p' out -> yields out = [] -> next p' = next p.
Proof. intros H E. rewrite !next_map, (R_nt H), E. auto. Qed.
Lemma R_grp p p' out : R p p' out -> Forall ginner out.
Proof. intros (n & u & B & _). apply B. Qed.
Lemma next_cnt p k : next p = Some k -> 0 < cnt p.
Proof. unfold next, cnt. destruct (nt (toks p)); cbn; [discriminate|lia]. Qed.
Lemma next_none p : next p = None -> cnt p = 0.
Proof. unfold next, cnt. destruct (nt (toks p)) as [|[k t] l]; cbn; [auto|discriminate]. Qed.
Lemma cnt_same p p' : toks p' = toks p -> cnt p' = cnt p.
Proof. unfold cnt. congruence. Qed.

(** ** The basic operations *)

Lemma keqb_eq a b : keqb a b = true <-> a = b.
Proof. unfold keqb. destruct (kind_eq_dec a b); split; congruence. Qed.
Lemma keqb_refl a : keqb a a = true.
Proof. apply keqb_eq. auto. Qed.
Lemma is_kind_iff o k : is_kind o k = true <-> o = Some k.
Proof. unfold is_kind. destruct o; [rewrite keqb_eq|]; split; congruence. Qed.

Lemma skip_trivia_ok ts : forall s o s' o' ts', skip_trivia s o ts = (s', o', ts') ->
  exists used, ts = used ++ ts' /\ nt used = [] /\ o' = o + tlen used /\
    match ts' with (k, _) :: _ => trivia k = false | [] => True end.
Proof.
  induction ts as [|[k t] ts IH]; intros s o s' o' ts' H; cbn in H.
  - injection H as <- <- <-. exists []. cbn. auto.
  - destruct (trivia k) eqn:E.
    + apply IH in H as (used & -> & A & -> & B). exists ((k, t) :: used). cbn. rewrite E. cbn. split; auto. split; auto. split; auto.
      unfold tlen. cbn. rewrite app_length. lia.
    + injection H as <- <- <-. exists []. cbn. auto.
Qed.

Lemma peek_spec p : wp peek p (fun o p' => R p p' [] /\ o = next p' /\ o = head_kind (toks p') /\ hints p' = hints p /\ expd p' = expd p /\ next p' = next p /\
  match toks p' with (k, _) :: _ => trivia k = false | [] => True end).
Proof.
  unfold wp, peek. destruct (skip_trivia (sol p) (off p) (toks p)) as [[s o] ts] eqn:E.
  apply skip_trivia_ok in E as (used & E & Hn & Ho & Ht).
  assert (HR : R p (mkP s ts o (cur p) (evs p) (hints p) (expd p)) []).
  { exists [], used. split; [|cbn; rewrite app_nil_r; split; auto; constructor]. constructor; cbn; auto.
    - rewrite Hn. auto.
    - intros H. split; [lia|]. split; [lia|]. auto. }
  split; auto.
  assert (Hk : head_kind ts = head_kind (nt ts)).
  { destruct ts as [|[k t] ts']; auto. cbn. rewrite Ht. auto. }
  cbn. split; auto. split; auto. split; auto. split; auto. split; auto. apply (R_next0 HR). auto.
Qed.

Lemma hint_spec h p : wp (hint_ h) p (fun _ p' => R p p' [] /\ hints p' <> []).
Proof.
  unfold wp, hint_. split; [apply R_refl; cbn; repeat split; auto|]. cbn. intros E. apply app_eq_nil in E as [_ E]. discriminate.
Qed.

Lemma at_spec k p : wp (at_ k) p (fun b p' => R p p' [] /\ (k <> KError -> expd p' <> []) /\ hints p' = hints p /\
  (b = true <-> next p' = Some k) /\ next p' = next p).
Proof.
  unfold at_. apply wp_bind. unfold wp at 1.
  set (p1 := if keqb k KError then p else _).
  assert (H1 : R p p1 []).
  { unfold p1. destruct (keqb k KError); apply R_refl; cbn; repeat split; auto. }
  assert (H2 : hints p1 = hints p) by (unfold p1; destruct (keqb k KError); auto).
  assert (H3 : k <> KError -> expd p1 <> []).
  { intros H. unfold p1. destruct (keqb k KError) eqn:E; [apply keqb_eq in E; congruence|]. cbn. intros E'. apply app_eq_nil in E' as [_ E']. discriminate. }
  eapply wp_seq; [apply peek_spec|]. cbn. intros o p' (A & B & B' & C & D & E & _). apply wp_ret.
  split; [apply (R_trans H1 A)|]. split; [rewrite D; auto|]. split; [congruence|]. split; [rewrite is_kind_iff, B; tauto|].
  rewrite E. apply (R_next0 H1). auto.
Qed.

Lemma trivia_next ts k : head_kind (nt ts) = Some k -> trivia k = false.
Proof.
  induction ts as [|[k' t] ts IH]; cbn; [discriminate|]. destruct (trivia k') eqn:E; cbn; auto. congruence.
Qed.

Lemma bump_any_spec p k : next p = Some k -> wp bump_any p (fun _ p' => R p p' [Tok k]).
Proof.
  intros H. unfold bump_any. eapply wp_seq; [apply peek_spec|]. cbn. intros o p1 (A & B & B' & C & D & E & F).
  unfold wp. rewrite H in E. rewrite B, E in B'. destruct (toks p1) as [|[k' t] r] eqn:Et; [discriminate|].
  cbn in B'. injection B' as <-. rewrite F.
  change [Tok k] with ([] ++ [Tok k]). eapply R_trans; [exact A|].
  exists [ETok k], [(k, t)]. split; [|cbn; split; auto; repeat constructor]. constructor; cbn; auto.
  - unfold tlen. cbn. rewrite app_nil_r. auto.
  - rewrite F. auto.
  - repeat constructor.
  - intros Hc. split; [lia|]. split; [lia|]. auto.
Qed.
Lemma bump_spec p k : next p = Some k -> wp (bump k) p (fun _ p' => R p p' [Tok k]).
Proof.
  intros H. unfold bump. eapply wp_seq; [apply at_spec|]. cbn. intros b p1 (A & _ & _ & B & C).
  rewrite C in B. destruct B as [_ B]. rewrite (B H). eapply wp_mono; [apply bump_any_spec; rewrite C; eauto|].
  cbn. intros _ p' H'. apply (R_trans A H').
Qed.

(** A node that has been started. *)
Definition Started (p : pstate) (m : nat) (p1 : pstate) : Prop := m = length (evs p) /\ p1 = set_evs p (evs p ++ [EHole]).
Lemma start_spec p : wp start p (fun m p1 => Started p m p1).
Proof. unfold wp, start. split; auto. Qed.
Lemma started_next p m p1 : Started p m p1 -> next p1 = next p /\ cnt p1 = cnt p /\ hints p1 = hints p /\ expd p1 = expd p.
Proof. intros [_ ->]. auto. Qed.

Lemma complete_spec p m p1 p2 out k : Started p m p1 -> R p1 p2 out -> ginner (Node k out) ->
  wp (complete m k) p2 (fun m' p3 => m' = m /\ RC p p3 m (Node k out) /\ toks p3 = toks p2).
Proof.
  intros [-> ->] (new & used & B & E & S) Hg. unfold wp, complete. cbn in E. rewrite E, <- app_assoc. cbn [app].
  rewrite nth_error_mid by auto. split; auto. split; auto. rewrite set_nth_app.
  exists (fun f => EStart k f :: new ++ [EFinish]), (fun f => EStart k f :: new ++ [EFinish]), (EHole :: new ++ [EFinish]), [], [k], (flats out ++ [EFinish]), used.
  split; [|split].
  - apply base_wrap; auto. eapply base_same_r; [eapply base_same_l; eauto; repeat split|repeat split].
  - cbn. rewrite <- app_assoc. auto.
  - apply chain_base. cbn in S. rewrite app_length in S. cbn in S. rewrite Nat.add_1_r in S. auto.
Qed.
Lemma complete_x p m p1 p2 k : Started p m p1 -> Rx p1 p2 -> k <> BinaryExpr ->
  wp (complete m k) p2 (fun m' p3 => m' = m /\ (exists l, RC p p3 m (Node k l)) /\ toks p3 = toks p2).
Proof.
  intros H1 [out H2] Hk. eapply wp_mono; [eapply complete_spec; eauto|]; [|cbn; intros a p' (A & B & C); eauto].
  apply gi_node; auto. eapply R_grp; eauto.
Qed.

(** A finished tree put inside a new node. *)
Definition Preceded (p p3 : pstate) (x : nat) (t : elem) (o1 : list elem) : Prop :=
  exists C CL sp idx m ks tl s1 used, Base p p3 (t :: o1) used /\ chain (length (evs p)) C CL sp idx m ks tl t /\
    seg (length (evs p) + length (C None)) s1 o1 /\ x = length (evs p) + length (C None) + length s1 /\
    evs p3 = evs p ++ C (Some x) ++ s1 ++ [EHole].
Lemma precede_spec p p1 p2 m t o1 : RC p p1 m t -> R p1 p2 o1 ->
  wp (precede m) p2 (fun x p3 => Preceded p p3 x t o1 /\ toks p3 = toks p2).
Proof.
  intros (C & CL & sp & idx & ks & tl & u & B & E & Hc) (s1 & u1 & B1 & E1 & S1).
  unfold precede. eapply wp_seq; [apply start_spec|]. cbn. intros x p3 [-> ->]. unfold wp. cbn [evs set_evs].
  destruct (chain_split Hc) as (a & b & a' & k0 & EC & ECL & El & Et & _).
  assert (Hl : length (C None) = length a + 1 + length b) by (rewrite EC, app_length; cbn; lia).
  replace (evs p2 ++ [EHole]) with ((evs p ++ a) ++ EStart k0 None :: (b ++ s1 ++ [EHole])) by (rewrite E1, E, EC; la).
  rewrite nth_error_mid by (rewrite app_length; lia). rewrite set_nth_app2 by (rewrite app_length; lia). split; auto.
  exists C, CL, sp, idx, m, ks, tl, s1, (u ++ u1).
  split; [eapply base_same_r; [apply (base_trans B B1)|repeat split]|]. split; auto.
  rewrite E, app_length in S1. split; auto. split; [rewrite E1, E, !app_length; lia|]. cbn. rewrite EC. la.
Qed.
Lemma complete2_spec p p3 x t o1 p4 o2 k : Preceded p p3 x t o1 -> R p3 p4 o2 -> ginner (Node k (t :: o1 ++ o2)) ->
  wp (complete x k) p4 (fun m' p5 => m' = x /\ RC p p5 x (Node k (t :: o1 ++ o2)) /\ toks p5 = toks p4).
Proof.
  intros (C & CL & sp & idx & m & ks & tl & s1 & u & B & Hc & S1 & Ex & E3) (s2 & u2 & B2 & E2 & S2) Hg.
  pose proof (chain_len Hc (Some x)) as Hl.
  assert (Ev : evs p4 = (evs p ++ C (Some x) ++ s1) ++ EHole :: s2) by (rewrite E2, E3; la).
  unfold wp, complete. rewrite Ev. rewrite nth_error_mid by (rewrite !app_length; lia). split; auto. split; auto.
  rewrite set_nth_app2 by (rewrite !app_length; lia).
  exists (fun f => C (Some x) ++ s1 ++ EStart k f :: s2 ++ [EFinish]), (fun f => CL None ++ s1 ++ EStart k f :: s2 ++ [EFinish]),
    (sp ++ s1 ++ EHole :: s2 ++ [EFinish]), (m :: idx), (k :: ks), (tl ++ flats o1 ++ flats o2 ++ [EFinish]), (u ++ u2).
  split; [|split].
  - apply base_wrap; auto. eapply base_same_r; [apply (base_trans B B2)|repeat split].
  - cbn. la.
  - eapply chain_ext; eauto. rewrite E3, !app_length in S2. cbn in S2. replace (S x) with (length (evs p) + (length (C (Some x)) + (length s1 + 1))) by lia. auto.
Qed.
Lemma complete2_x p p3 x t o1 p4 k : Preceded p p3 x t o1 -> Rx p3 p4 -> k <> BinaryExpr ->
  wp (complete x k) p4 (fun m' p5 => m' = x /\ (exists l, RC p p5 x (Node k l)) /\ toks p5 = toks p4).
Proof.
  intros H [o2 H2] Hk. eapply wp_mono; [eapply complete2_spec; eauto|]; [|cbn; intros a p' (A & B & C); eauto].
  apply gi_node; auto. destruct H as (C & CL & sp & idx & m & ks & tl & s1 & u & B & _).
  pose proof (b_grp B) as Hg. inversion Hg; subst. constructor; auto. apply Forall_app. split; auto. eapply R_grp; eauto.
Qed.

Lemma bump_name_spec p : next p = Some KName -> wp bump_name p (fun _ p' => R p p' [Node NameNode [Tok KName]]).
Proof.
  intros H. unfold bump_name. eapply wp_seq; [apply start_spec|]. cbn. intros m p1 Hs.
  eapply wp_seq; [apply bump_spec; destruct (started_next Hs) as [-> _]; auto|]. cbn. intros _ p2 H2.
  eapply wp_seq; [eapply complete_spec; eauto; apply gi_node; [discriminate|repeat constructor]|].
  cbn. intros a p3 (-> & H3 & _). apply wp_ret. eapply RC_R; eauto.
Qed.

Lemma emit_error_spec p : hints p <> [] \/ expd p <> [] ->
  wp emit_error p (fun _ p' => exists sp out, R p p' out /\
    ((next p = Some KError /\ out = [Err sp; Tok KError]) \/ (next p <> Some KError /\ out = [Err sp]))).
Proof.
  intros Hne. unfold emit_error. eapply wp_seq; [apply peek_spec|]. cbn. intros o p1 (A & B & _ & C & D & E & _).
  eapply wp_seq with (Q := fun _ p2 => R p1 p2 []).
  { unfold wp. destruct (is_kind o KError) eqn:Ek; [apply R_refl; repeat split|].
    rewrite <- C, <- D in Hne.
    assert (Hx : hints p1 <> [] \/ filter (fun t => forallb (fun h => negb (hint_starts h t)) (hints p1)) (expd p1) <> []).
    { destruct (hints p1) as [|h hs] eqn:Eh; [|left; discriminate]. right. destruct Hne as [Hne|Hne]; [congruence|].
      destruct (expd p1); [congruence|]. cbn. discriminate. }
    destruct (hints p1) as [|h hs]; [|apply R_refl; cbn; repeat split; auto].
    destruct (filter _ _); [destruct Hx; congruence|]. apply R_refl; cbn; repeat split; auto. }
  intros _ p2 H2. pose proof (R_trans A H2) as H02.
  eapply wp_seq; [apply peek_spec|]. cbn. intros o3 p3 (A3 & _ & _ & _ & _ & E3 & _).
  pose proof (R_trans H02 A3) as H03. cbn in H03.
  set (span := match toks p3 with (_, t) :: _ => (off p3, off p3 + length t) | [] => (cur p3, cur p3) end).
  eapply wp_seq with (Q := fun _ p4 => R p3 p4 [Err span]).
  { unfold wp. exists [EErr span], []. split; [|cbn; split; auto; repeat constructor]. constructor; cbn; auto.
    - repeat constructor.
    - intros Hc. split; auto. split; auto. constructor; auto. unfold span, within. destruct (toks p3) as [|[k t] r]; cbn.
      + lia.
      + unfold tlen. cbn. rewrite app_length. lia. }
  intros _ p4 H4. pose proof (R_trans H03 H4) as H04. cbn in H04.
  eapply wp_seq; [apply at_spec|]. cbn. intros b p5 (A5 & _ & _ & B5 & E5).
  pose proof (R_trans H04 A5) as H05. cbn in H05.
  assert (En : next p5 = next p) by (apply (R_next0 H05); auto).
  destruct b.
  - assert (Hn : next p5 = Some KError) by (apply B5; auto).
    eapply wp_mono; [apply bump_spec; auto|]. cbn. intros _ p6 H6. exists span. eexists. split; [apply (R_trans H05 H6)|]. left. split; [congruence|auto].
  - apply wp_ret. exists span. eexists. split; [exact H05|]. right. split; auto. intros Hn. rewrite <- En in Hn. apply B5 in Hn. discriminate.
Qed.
Lemma emit_error_x p : hints p <> [] \/ expd p <> [] -> wp emit_error p (fun _ p' => Rx p p').
Proof. intros H. eapply wp_mono; [apply emit_error_spec; auto|]. cbn. intros _ p' (sp & out & A & _). eexists; eauto. Qed.

Lemma expect_spec k p : k <> KError -> wp (expect k) p (fun _ p' => Rx p p' /\ (next p = Some k -> cnt p' < cnt p)).
Proof.
  intros Hk. unfold expect. eapply wp_seq; [apply at_spec|]. cbn. intros b p1 (A & B & C & D & E).
  destruct b.
  - eapply wp_mono; [apply bump_spec; apply D; auto|]. cbn. intros _ p' H'. pose proof (R_trans A H') as H. split; [eapply R_Rx; eauto|].
    intros _. rewrite (R_cnt H). cbn. lia.
  - eapply wp_mono; [apply emit_error_x; auto|]. cbn. intros _ p' H'. split; [eapply Rx_trans; [eapply R_Rx; eauto|auto]|].
    intros Hn. rewrite <- E in Hn. apply D in Hn. discriminate.
Qed.
Lemma expect_name_spec p : wp expect_name p (fun _ p' => Rx p p').
Proof.
  unfold expect_name. eapply wp_seq; [apply at_spec|]. cbn. intros b p1 (A & B & C & D & E).
  destruct b.
  - eapply wp_mono; [apply bump_name_spec; apply D; auto|]. cbn. intros _ p' H'. eapply R_Rx. apply (R_trans A H').
  - eapply wp_mono; [apply emit_error_x; right; apply B; discriminate|]. cbn. intros _ p' H'. eapply Rx_trans; [eapply R_Rx; eauto|auto].
Qed.

Lemma while_spec body p : forall n,
  (forall p', cnt p' <= cnt p -> wp body p' (fun b p'' => Rx p' p'' /\ (b = true -> cnt p'' < cnt p'))) ->
  cnt p < n -> wp (while_ n body) p (fun _ p' => Rx p p').
Proof.
  intros n Hb Hn. assert (Hq : forall q, cnt q <= cnt p -> cnt q < n -> wp (while_ n body) q (fun _ p' => Rx q p')).
  { clear Hn. induction n as [|n IH]; intros q H1 H2; [lia|]. cbn. eapply wp_seq; [apply Hb; auto|]. cbn. intros b q' [A B]. destruct b.
    - specialize (B eq_refl). eapply wp_mono; [apply IH; lia|]. cbn. intros _ q'' H. eapply Rx_trans; eauto.
    - apply wp_ret. auto. }
  apply Hq; auto.
Qed.
