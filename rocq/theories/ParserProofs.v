(** The parser never panics, never runs out of steps, and its events describe trees. *)
From Verif Require Import Parser ParserSpec.
Set Implicit Arguments.

(** Grouping while the errors are still in the tree. *)
Inductive ginner : elem -> Prop :=
| gi_tok k : ginner (Tok k)
| gi_err s : ginner (Err s)
| gi_node k l : k <> BinaryExpr -> Forall ginner l -> ginner (Node k l)
| gi_binary l op r p :
    (exists k ch, l = Node k ch) -> ginner l -> Forall ginner r -> level op = Some p ->
    (exists k ch, r = [Node k ch]) \/ (exists s, r = [Err s] \/ r = [Err s; Tok KError]) ->
    (forall x, In x r -> forall q, top_level x q -> p < q) ->
    (has_right l -> forall q, top_level l q -> p <= q) ->
    ginner (Node BinaryExpr (l :: Node BinaryOp [Tok op] :: r)).

(** ** Events that describe trees *)

Fixpoint flat (e : elem) : list event :=
  match e with Tok k => [ETok k] | Err s => [EErr s] | Node k l => EStart k None :: flat_map flat l ++ [EFinish] end.
Definition flats (l : list elem) : list event := flat_map flat l.
Definition st0 (k : skind) : event := EStart k None.

(** [seg o es l]: the events [es], at position [o], describe the trees [l].
    [chain o C CL sp idx top ks tl t]: [C f] is a tree whose outermost node starts at [top] and has
    forward parent [f]; the starts of the chain are at [top :: idx]; [CL f] is the same with the inner
    forward parents cleared, [sp] with the starts taken away; [ks] the kinds of the starts, [tl] the
    events that remain after them. *)
Inductive seg : nat -> list event -> list elem -> Prop :=
| seg_nil o : seg o [] []
| seg_tok o k es l : seg (S o) es l -> seg o (ETok k :: es) (Tok k :: l)
| seg_err o s es l : seg (S o) es l -> seg o (EErr s :: es) (Err s :: l)
| seg_chain o C CL sp idx top ks tl t es l :
    chain o C CL sp idx top ks tl t -> seg (o + length (C None)) es l -> seg o (C None ++ es) (t :: l)
with chain : nat -> (option nat -> list event) -> (option nat -> list event) -> list event ->
             list nat -> nat -> list skind -> list event -> elem -> Prop :=
| chain_base o k es l :
    seg (S o) es l ->
    chain o (fun f => EStart k f :: es ++ [EFinish]) (fun f => EStart k f :: es ++ [EFinish])
            (EHole :: es ++ [EFinish]) [] o [k] (flats l ++ [EFinish]) (Node k l)
| chain_ext o C CL sp idx top ks tl t s1 f1 j k s2 f2 :
    chain o C CL sp idx top ks tl t ->
    seg (o + length (C None)) s1 f1 ->
    j = o + length (C None) + length s1 ->
    seg (S j) s2 f2 ->
    chain o (fun f => C (Some j) ++ s1 ++ EStart k f :: s2 ++ [EFinish])
            (fun f => CL None ++ s1 ++ EStart k f :: s2 ++ [EFinish])
            (sp ++ s1 ++ EHole :: s2 ++ [EFinish])
            (top :: idx) j (k :: ks) (tl ++ flats f1 ++ flats f2 ++ [EFinish]) (Node k (t :: f1 ++ f2)).

Scheme seg_ind2 := Minimality for seg Sort Prop with chain_ind2 := Minimality for chain Sort Prop.
Combined Scheme seg_chain_ind from seg_ind2, chain_ind2.

Ltac la := do 5 (rewrite <- ?app_assoc; cbn [app]); reflexivity.

Lemma set_nth_app {A} (l r : list A) x y : set_nth (l ++ x :: r) (length l) y = l ++ y :: r.
Proof. induction l; cbn; congruence. Qed.
Lemma set_nth_app2 {A} (l r : list A) n x y : n = length l -> set_nth (l ++ x :: r) n y = l ++ y :: r.
Proof. intros ->. apply set_nth_app. Qed.
Lemma nth_app_mid {A} (l r : list A) x d n : n = length l -> nth n (l ++ x :: r) d = x.
Proof. intros ->. rewrite app_nth2, Nat.sub_diag; auto. Qed.
Lemma nth_error_mid {A} (l r : list A) x n : n = length l -> nth_error (l ++ x :: r) n = Some x.
Proof. intros ->. rewrite nth_error_app2, Nat.sub_diag; auto. Qed.
Lemma flats_app a b : flats (a ++ b) = flats a ++ flats b.
Proof. apply flat_map_app. Qed.

(** The top start of a chain, as a split. *)
Lemma chain_split o C CL sp idx top ks tl t : chain o C CL sp idx top ks tl t ->
  exists a b a' k, (forall f, C f = a ++ EStart k f :: b) /\ (forall f, CL f = a' ++ EStart k f :: b) /\
    length a = length a' /\ top = o + length a /\ length sp = length (C None).
Proof.
  induction 1 as [o k es l Hs|o C CL sp idx top ks tl t s1 f1 j k s2 f2 Hc IH H1 E H2].
  - exists [], (es ++ [EFinish]), [], k. cbn. repeat split; auto.
  - destruct IH as (a & b & a' & k0 & EC & ECL & El & Et & Es).
    assert (Hl : forall f, length (C f) = length (C None)) by (intros f; rewrite !EC, !app_length; auto).
    assert (Hl' : forall f, length (CL f) = length (C None)) by (intros f; rewrite EC, ECL, !app_length; cbn; auto).
    exists (C (Some j) ++ s1), (s2 ++ [EFinish]), (CL None ++ s1), k.
    split; [intros; rewrite <- app_assoc; auto|]. split; [intros; rewrite <- app_assoc; auto|].
    rewrite !app_length, (Hl (Some j)), (Hl' None). split; auto. split; [lia|]. cbn [length]. rewrite !app_length. cbn. lia.
Qed.
Lemma chain_len o C CL sp idx top ks tl t : chain o C CL sp idx top ks tl t -> forall f, length (C f) = length (C None).
Proof. intros H f. destruct (chain_split H) as (a & b & a' & k & EC & _). rewrite !EC, !app_length. auto. Qed.
Lemma chain_lenCL o C CL sp idx top ks tl t : chain o C CL sp idx top ks tl t -> forall f, length (CL f) = length (C None).
Proof. intros H f. destruct (chain_split H) as (a & b & a' & k & EC & ECL & E & _). rewrite EC, ECL, !app_length. cbn. auto. Qed.

Lemma chain_flat o C CL sp idx top ks tl t : chain o C CL sp idx top ks tl t -> flat t = map st0 ks ++ tl.
Proof.
  induction 1 as [o k es l Hs|o C CL sp idx top ks tl t s1 f1 j k s2 f2 Hc IH H1 E H2]; cbn; auto.
  rewrite IH. rewrite flat_map_app. rewrite <- !app_assoc. reflexivity.
Qed.

(** Following the forward parents. *)
Lemma walk o C CL sp idx top ks tl t : chain o C CL sp idx top ks tl t -> forall pre post n f acc,
  length pre = o ->
  chain_from (length idx + n) (pre ++ C f ++ post) o acc = chain_from n (pre ++ CL f ++ post) top (idx ++ acc).
Proof.
  induction 1 as [o k es l Hs|o C CL sp idx top ks tl t s1 f1 j k s2 f2 Hc IH H1 E H2]; intros pre post n f acc Hp.
  - cbn. auto.
  - rewrite <- !app_assoc. cbn [length]. replace (S (length idx) + n) with (length idx + S n) by lia.
    rewrite IH by auto. destruct (chain_split Hc) as (a & b & a' & k0 & EC & ECL & El & Et & _).
    cbn [chain_from]. rewrite (ECL (Some j)), <- app_assoc. cbn [app].
    rewrite app_assoc. rewrite nth_error_mid by (rewrite app_length; lia).
    rewrite set_nth_app2 by (rewrite app_length; lia). rewrite <- !app_assoc.
    rewrite (ECL None). rewrite <- ?app_assoc. cbn [app]. rewrite <- ?app_assoc. reflexivity.
Qed.

Lemma take_all o C CL sp idx top ks tl t : chain o C CL sp idx top ks tl t -> forall pre post out,
  length pre = o ->
  fold_left take_event (top :: idx) (pre ++ CL None ++ post, out) = (pre ++ sp ++ post, out ++ map st0 ks).
Proof.
  induction 1 as [o k es l Hs|o C CL sp idx top ks tl t s1 f1 j k s2 f2 Hc IH H1 E H2]; intros pre post out Hp.
  - cbn. rewrite set_nth_app2, nth_app_mid by auto. auto.
  - cbn [fold_left take_event]. cbn [fold_left take_event] in IH.
    pose proof (chain_lenCL Hc None) as Hl.
    replace (pre ++ (CL None ++ s1 ++ EStart k None :: s2 ++ [EFinish]) ++ post)
      with ((pre ++ CL None ++ s1) ++ EStart k None :: (s2 ++ [EFinish]) ++ post) by la.
    rewrite set_nth_app2, nth_app_mid by (rewrite !app_length; lia).
    replace ((pre ++ CL None ++ s1) ++ EHole :: (s2 ++ [EFinish]) ++ post)
      with (pre ++ CL None ++ (s1 ++ EHole :: (s2 ++ [EFinish]) ++ post)) by la.
    rewrite IH by auto. cbn [map]. f_equal; la.
Qed.

Definition holes (n : nat) : list event := repeat EHole n.
Lemma reorder_app a is1 is2 : reorder_loop a (is1 ++ is2) = match reorder_loop a is1 with Ok a => reorder_loop a is2 | Panic => Panic | Fuel => Fuel end.
Proof. revert a. induction is1 as [|i is1 IH]; intros a; cbn; auto. destruct (reorder_step a i); auto. Qed.

Definition runs (o : nat) (es : list event) (out' : list event) : Prop :=
  forall pre post out, length pre = o ->
    reorder_loop (pre ++ es ++ post, out) (List.seq o (length es)) = Ok (pre ++ holes (length es) ++ post, out ++ out').

Lemma runs_app o a b oa ob : runs o a oa -> runs (o + length a) b ob -> runs o (a ++ b) (oa ++ ob).
Proof.
  intros Ha Hb pre post out Hp. rewrite app_length, seq_app, reorder_app.
  rewrite <- app_assoc, Ha by auto. unfold holes. rewrite app_assoc.
  rewrite Hb by (rewrite app_length, repeat_length; lia). unfold holes. rewrite repeat_app, <- !app_assoc. auto.
Qed.
Lemma runs_one o e out' : (forall k f, e <> EStart k f) -> e <> EHole -> out' = [e] -> runs o [e] out'.
Proof.
  intros H1 H2 -> pre post out Hp. cbn [length List.seq reorder_loop reorder_step app]. rewrite nth_app_mid by auto.
  destruct e; try congruence; cbn [take_event]; rewrite set_nth_app2, nth_app_mid by auto; auto.
Qed.
Lemma runs_hole o : runs o [EHole] [].
Proof. intros pre post out Hp. cbn [length List.seq reorder_loop reorder_step app]. rewrite nth_app_mid by auto. rewrite app_nil_r. auto. Qed.
Lemma runs_nil o : runs o [] [].
Proof. intros pre post out Hp. cbn. rewrite app_nil_r. auto. Qed.
Lemma runs_eq o a b oa ob : runs o a oa -> a = b -> oa = ob -> runs o b ob.
Proof. intros; subst; auto. Qed.
Lemma runs_cons o e es a b : runs o [e] a -> runs (S o) es b -> runs o (e :: es) (a ++ b).
Proof. intros H1 H2. apply (@runs_app o [e] es); auto. cbn. rewrite Nat.add_1_r. auto. Qed.

Lemma chain_runs o C CL sp idx top ks tl t : chain o C CL sp idx top ks tl t -> runs o sp tl -> runs o (C None) (flat t).
Proof.
  intros H Hr pre post out Hp. destruct (chain_split H) as (a & b & a' & k0 & EC & ECL & El & Et & Es).
  assert (Hne : exists n, length (C None) = S n) by (rewrite EC, app_length; cbn; rewrite Nat.add_succ_r; eauto).
  destruct Hne as [n Hn]. rewrite Hn. cbn [List.seq reorder_loop].
  assert (Hstep : reorder_step (pre ++ C None ++ post, out) o = Ok (pre ++ sp ++ post, out ++ map st0 ks)).
  { clear a b a' k0 EC ECL El Et Es n Hn Hr. unfold reorder_step. inversion H; subst.
    - cbn [app]. rewrite nth_app_mid by auto. cbn [take_event]. rewrite set_nth_app2, nth_app_mid by auto. cbn [map]. auto.
    - assert (Hstart : forall C CL sp idx top ks tl t j, chain (length pre) C CL sp idx top ks tl t ->
        exists r k f, C (Some j) = EStart k (Some f) :: r).
      { clear. intros C CL sp idx top ks tl t j Hc. revert j. set (o := length pre) in Hc. clearbody o.
        induction Hc; intros j0; cbn; eauto. destruct (IHHc j) as (r & k' & f & ->). cbn. eauto. }
      edestruct Hstart as (r & k' & f & Er); [exact H0|].
      set (es := pre ++ (C0 (Some (length pre + length (C0 None) + length s1)) ++ s1 ++ EStart k None :: s2 ++ [EFinish]) ++ post).
      assert (E1 : nth (length pre) es EHole = EStart k' (Some f)).
      { unfold es. rewrite Er. cbn [app]. apply nth_app_mid. auto. }
      cbv beta. fold es. rewrite E1.
      assert (Hlen : length (top0 :: idx0) + (S (length es) - length (top0 :: idx0)) = S (length es) /\ length (top0 :: idx0) <= length es).
      { assert (Hi : forall o C CL sp idx top ks tl t, chain o C CL sp idx top ks tl t -> length (top :: idx) <= length (C None)).
        { clear. induction 1 as [|? ? ? ? ? ? ? ? ? ? ? ? ? ? ? ? IH]; cbn [length]; [lia|]. rewrite !app_length, (chain_len H (Some j)). cbn [length] in *. rewrite app_length. cbn. lia. }
        pose proof (Hi _ _ _ _ _ _ _ _ _ H) as Hi'. unfold es. rewrite app_length, (app_length _ post). cbn [length] in *. lia. }
      destruct Hlen as [Hlen Hle].
      pose proof (walk H pre post (S (length es) - length (top0 :: idx0)) None [] eq_refl) as W. cbn beta in W. fold es in W. 
      rewrite Hlen in W. rewrite W. clear W.
      destruct (S (length es) - length (top0 :: idx0)) as [|m] eqn:Em.
      { exfalso. lia. }
      cbn [chain_from]. rewrite <- !app_assoc. cbn [app].
      replace (pre ++ CL0 None ++ s1 ++ EStart k None :: (s2 ++ [EFinish]) ++ post)
        with ((pre ++ CL0 None ++ s1) ++ EStart k None :: (s2 ++ [EFinish]) ++ post) by la.
      rewrite nth_error_mid by (rewrite !app_length, (chain_lenCL H0); lia).
      pose proof (take_all H pre post out eq_refl) as T. rewrite app_nil_r. rewrite <- !app_assoc in T. cbn [app] in T. rewrite <- !app_assoc in *. cbn [app] in *. rewrite T. auto. }
  rewrite Hstep. pose proof (Hr pre post (out ++ map st0 ks) Hp) as R. rewrite Es, Hn in R. cbn [List.seq reorder_loop] in R.
  assert (Hnop : reorder_step (pre ++ sp ++ post, out ++ map st0 ks) o = Ok (pre ++ sp ++ post, out ++ map st0 ks)).
  { assert (Hsp : exists r, sp = EHole :: r). { clear -H. induction H; eauto. destruct IHchain as [r ->]. cbn. eauto. }
    destruct Hsp as [r ->]. unfold reorder_step. cbn [app]. rewrite nth_app_mid by auto. auto. }
  rewrite Hnop in R. rewrite R. rewrite (chain_flat H). rewrite <- !app_assoc. auto.
Qed.

Lemma seg_runs :
  (forall o es l, seg o es l -> runs o es (flats l)) /\
  (forall o C CL sp idx top ks tl t, chain o C CL sp idx top ks tl t -> runs o sp tl).
Proof.
  apply seg_chain_ind.
  - intros o. apply runs_nil.
  - intros o k es l _ IH. apply (@runs_cons o _ es [ETok k]); auto. apply runs_one; congruence.
  - intros o s es l _ IH. apply (@runs_cons o _ es [EErr s]); auto. apply runs_one; congruence.
  - intros o C CL sp idx top ks tl t es l Hc IHc Hs IHs. apply runs_app; auto. eapply chain_runs; eauto.
  - intros o k es l Hs IHs. apply (@runs_cons o EHole _ []); [apply runs_hole|]. apply runs_app; auto. apply runs_one; congruence.
  - intros o C CL sp idx top ks tl t s1 f1 j k s2 f2 Hc IHc H1 IH1 E H2 IH2.
    destruct (chain_split Hc) as (a & b & a' & k0 & EC & ECL & El & Et & Es).
    apply runs_app; auto. rewrite Es. apply runs_app; auto. rewrite <- E.
    apply (@runs_cons j EHole _ []); [apply runs_hole|]. apply runs_app; auto. apply runs_one; congruence.
Qed.

Lemma seg_len :
  (forall o es l, seg o es l -> length es = length (flats l)) /\
  (forall o C CL sp idx top ks tl t, chain o C CL sp idx top ks tl t -> length (C None) = length (flat t)).
Proof.
  apply seg_chain_ind; unfold flats; cbn; intros; auto.
  - rewrite !app_length. auto.
  - rewrite !app_length. cbn. lia.
  - rewrite flat_map_app, !app_length. rewrite (chain_len H (Some j)). cbn [length]. rewrite !app_length. cbn. lia.
Qed.

Lemma reorder_ok es l : seg 0 es l -> reorder es = Ok (flats l).
Proof.
  intros H. unfold reorder. pose proof (proj1 seg_runs _ _ _ H [] [] [] eq_refl) as R. cbn [app] in R.
  rewrite app_nil_r in R. rewrite R. rewrite app_nil_r. unfold holes. rewrite repeat_length.
  rewrite (proj1 seg_len _ _ _ H), Nat.eqb_refl. auto.
Qed.
