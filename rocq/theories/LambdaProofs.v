(** The lambda runner computes what the tree-walker computes. *)
From Verif Require Import Lambda Vm Wf CompileStatic CompileCorrect RunnerCorrect.
From Coq Require Import Permutation.
Set Implicit Arguments.

(** ** free_names *)
Lemma set_insert_In n s x : In x (set_insert n s) <-> x = n \/ In x s.
Proof.
  unfold set_insert. destruct (mem n s) eqn:E; simpl.
  - apply mem_In in E. split; auto. intros [-> | H]; auto.
  - split; intros [H|H]; auto.
Qed.
Lemma set_insert_NoDup n s : NoDup s -> NoDup (set_insert n s).
Proof. unfold set_insert. destruct (mem n s) eqn:E; auto. intros; constructor; auto. apply mem_false; auto. Qed.
Lemma set_remove_In n s x : In x (set_remove n s) <-> In x s /\ x <> n.
Proof. unfold set_remove. rewrite filter_In, negb_true_iff, Nat.eqb_neq. tauto. Qed.
Lemma set_remove_all_In ns : forall s x, In x (set_remove_all ns s) <-> In x s /\ ~ In x ns.
Proof.
  unfold set_remove_all. induction ns as [|n ns IH]; intros s x; simpl; [tauto|].
  rewrite IH, set_remove_In. intuition congruence.
Qed.
Lemma set_remove_all_NoDup ns : forall s, NoDup s -> NoDup (set_remove_all ns s).
Proof. unfold set_remove_all. induction ns as [|n ns IH]; intros s H; simpl; auto. apply IH, NoDup_filter; auto. Qed.

Definition fv (e : expr) (x : name) : Prop := In x (used_names e) /\ ~ In x (binders e).
Definition fnspec (e : expr) : Prop := forall S res, wfx S e -> NoDup res ->
  (forall x, In x res -> ~ In x (binders e)) ->
  NoDup (free_names e res) /\ (forall x, In x (free_names e res) <-> In x res \/ fv e x).

Lemma fv_scope S e x : wfx S e -> fv e x -> In x S.
Proof. intros (Hs & _ & _) (Hu & Hb). destruct (scoped_used _ _ Hs x Hu); tauto. Qed.

Lemma wfx_incl S S' e : wfx S e -> incl S S' -> (forall x, In x (binders e) -> ~ In x S') -> wfx S' e.
Proof.
  intros (Hs & Hn & Hd) Hi H. repeat split; auto. eapply scoped_weaken; eauto.
Qed.

(** One after the other. *)
Lemma fn_seq S es : Forall fnspec es -> Forall (wfx S) es -> NoDup (flat_map binders es) ->
  forall res, NoDup res -> (forall x, In x res -> ~ In x (flat_map binders es)) ->
  let r := fold_left (fun r a => free_names a r) es res in
  NoDup r /\ (forall x, In x r <-> In x res \/ (exists e, In e es /\ fv e x)).
Proof.
  intros HF HW HN. induction es as [|e es IH]; intros res Hr Hd; simpl in *.
  - split; auto. intros x; split; auto. intros [H|(e & [] & _)]; auto.
  - inversion HF as [|? ? F1 F2]; subst. inversion HW as [|? ? W1 W2]; subst.
    apply NoDup_app_iff in HN as (N1 & N2 & N3).
    destruct (F1 S res W1 Hr) as [D1 I1].
    { intros x Hx Hb. apply (Hd x Hx). apply in_or_app; auto. }
    destruct (IH F2 W2 N2 (free_names e res) D1) as [D2 I2].
    { intros x Hx Hb. apply I1 in Hx as [Hx|Hx].
      - apply (Hd x Hx). apply in_or_app; auto.
      - apply (fv_scope W1) in Hx. apply in_flat_map in Hb as (e' & He' & Hb).
        rewrite Forall_forall in W2. destruct (W2 e' He') as (_ & _ & Hd'). apply (Hd' x); auto. }
    split; auto. intros x. rewrite I2, I1. split.
    + intros [[H|H]|(e' & H1 & H2)]; eauto.
    + intros [H|(e' & [<-|H1] & H2)]; eauto.
Qed.

Lemma fv_other S (es : list expr) e x : Forall (wfx S) es -> NoDup (flat_map binders es) -> In e es ->
  fv e x -> ~ In x (flat_map binders es).
Proof.
  intros HW HN He Hf Hb. rewrite Forall_forall in HW. apply in_flat_map in Hb as (e' & He' & Hb).
  destruct (HW e' He') as (_ & _ & Hd). exact (Hd x Hb (fv_scope (HW e He) Hf)).
Qed.
Lemma fv_list S es x : Forall (wfx S) es -> NoDup (flat_map binders es) ->
  ((exists e, In e es /\ fv e x) <-> In x (flat_map used_names es) /\ ~ In x (flat_map binders es)).
Proof.
  intros HW HN. split.
  - intros (e & He & Hf). split; [apply in_flat_map; exists e; split; auto; apply Hf|].
    eapply fv_other; eauto.
  - intros [Hu Hb]. apply in_flat_map in Hu as (e & He & Hu). exists e; repeat split; auto.
    intros Hb'. apply Hb, in_flat_map; eauto.
Qed.

Lemma wfx_call S f args : wfx S (ECall f args) -> Forall (wfx S) (f :: args) /\ NoDup (flat_map binders (f :: args)).
Proof.
  intros (Hs & Hn & Hd). simpl in *. apply andb_prop in Hs as [H1 H2]. split; auto.
  apply (@wfx_args S (f :: args)); simpl; auto. rewrite H1; auto.
Qed.
Lemma wfx_if S c t e : wfx S (EIf c t e) -> Forall (wfx S) [c; t; e] /\ NoDup (flat_map binders [c; t; e]).
Proof.
  intros (Hs & Hn & Hd). simpl in *. rewrite app_nil_r. apply andb_prop in Hs as [Hs H3]. apply andb_prop in Hs as [H1 H2].
  split; auto. apply (@wfx_args S [c; t; e]); simpl; try rewrite app_nil_r; auto. rewrite H1, H2, H3; auto.
Qed.
Lemma wfx_op S a o b : wfx S (EOp a o b) -> Forall (wfx S) [a; b] /\ NoDup (flat_map binders [a; b]).
Proof.
  intros (Hs & Hn & Hd). simpl in *. rewrite app_nil_r. apply andb_prop in Hs as [H1 H2].
  split; auto. apply (@wfx_args S [a; b]); simpl; try rewrite app_nil_r; auto. rewrite H1, H2; auto.
Qed.
Lemma wfx_lam S ps b : wfx S (ELam ps b) -> wfx (map fst ps ++ S) b /\ NoDup (map fst ps) /\
  (forall x, In x (map fst ps) -> ~ In x (binders b)) /\ (forall x, In x (map fst ps) -> ~ In x S).
Proof.
  intros (Hs & Hn & Hd). simpl in *. apply NoDup_app_iff in Hn as (N1 & N2 & N3). split; [|split; [|split]]; auto.
  - repeat split; auto. intros x Hx Hi. apply in_app_iff in Hi as [Hi|Hi]; [eapply N3; eauto|].
    apply (Hd x); auto. apply in_or_app; auto.
  - intros x Hx. apply Hd, in_or_app; auto.
Qed.
Lemma wfx_let S n v e : wfx S (ELet n v e) -> wfx S v /\ wfx (n :: S) e /\ ~ In n S /\ ~ In n (binders v) /\
  ~ In n (binders e) /\ (forall x, In x (binders v) -> ~ In x (binders e)).
Proof.
  intros (Hs & Hn & Hd). simpl in *. apply andb_prop in Hs as [H1 H2]. inversion Hn as [|? ? N0 N1]; subst.
  apply NoDup_app_iff in N1 as (N1 & N2 & N3). rewrite in_app_iff in N0.
  repeat split; auto; try tauto.
  - intros x Hx. apply Hd. right. apply in_or_app; auto.
  - intros x Hx [<-|Hx']; [tauto|]. apply (Hd x); auto. right. apply in_or_app; auto.
Qed.
Lemma wfx_rec S n t v e : wfx S (ELetRec n t v e) -> wfx (n :: S) v /\ wfx (n :: S) e /\ ~ In n S /\ ~ In n (binders v) /\
  ~ In n (binders e) /\ (forall x, In x (binders v) -> ~ In x (binders e)).
Proof.
  intros (Hs & Hn & Hd). simpl in *. apply andb_prop in Hs as [H1 H2]. inversion Hn as [|? ? N0 N1]; subst.
  apply NoDup_app_iff in N1 as (N1 & N2 & N3). rewrite in_app_iff in N0.
  repeat split; auto; try tauto.
  - intros x Hx [<-|Hx']; [tauto|]. apply (Hd x); auto. right. apply in_or_app; auto.
  - intros x Hx [<-|Hx']; [tauto|]. apply (Hd x); auto. right. apply in_or_app; auto.
Qed.
Lemma wfx_br S d brs : wfx S (EMatch d brs) ->
  wfx S d /\ (forall x, In x (binders d) -> ~ In x (flat_map (fun br => snd (fst br) ++ binders (snd br)) brs)) /\
  NoDup (flat_map (fun br => snd (fst br) ++ binders (snd br)) brs) /\
  forall br, In br brs -> wfx (snd (fst br) ++ S) (snd br) /\ NoDup (snd (fst br)) /\
    (forall x, In x (snd (fst br)) -> ~ In x (binders (snd br))) /\ (forall x, In x (snd (fst br)) -> ~ In x S).
Proof.
  intros (Hs & Hn & Hd). simpl in *. apply andb_prop in Hs as [H1 H2]. apply NoDup_app_iff in Hn as (N1 & N2 & N3).
  split; [|split; [|split]]; auto.
  - repeat split; auto. intros x Hx. apply Hd, in_or_app; auto.
  - intros br Hbr. rewrite forallb_forall in H2.
    assert (NB := NoDup_flat_map_In _ _ _ N2 Hbr). apply NoDup_app_iff in NB as (M1 & M2 & M3).
    assert (HB : forall x, In x (snd (fst br) ++ binders (snd br)) -> ~ In x S).
    { intros x Hx. apply Hd. apply in_or_app; right. apply in_flat_map; eauto. }
    split; [|split; [|split]]; auto.
    + repeat split; auto. intros x Hx Hi. apply in_app_iff in Hi as [Hi|Hi]; [eapply M3; eauto|].
      apply (HB x); auto. apply in_or_app; auto.
    + intros x Hx. apply HB, in_or_app; auto.
Qed.

Lemma free_names_spec e : fnspec e.
Proof.
  induction e using expr_ind'; intros S res HW Hr Hd; simpl free_names.
  - split; auto. intros x; unfold fv; simpl; tauto.
  - split; auto. intros x; unfold fv; simpl; tauto.
  - split; auto. intros x; unfold fv; simpl; tauto.
  - split; [apply set_insert_NoDup; auto|]. intros x. rewrite set_insert_In. unfold fv; simpl. intuition congruence.
  - destruct (wfx_call HW) as [W N].
    destruct (@fn_seq S (e :: args) (Forall_cons _ IHe H) W N res Hr Hd) as [D I]. split; auto.
    intros x. etransitivity; [apply I|]. rewrite (fv_list x W N). unfold fv; simpl. tauto.
  - destruct (wfx_if HW) as [W N].
    destruct (@fn_seq S [e1; e2; e3]) with (res := res) as [D I]; auto.
    { intros x Hx Hi. apply (Hd x Hx). simpl in *. rewrite app_nil_r in Hi; auto. }
    split; auto. intros x. etransitivity; [apply I|]. rewrite (fv_list x W N). unfold fv; simpl. rewrite !app_nil_r. tauto.
  - destruct (wfx_op HW) as [W N].
    destruct (@fn_seq S [e1; e2]) with (res := res) as [D I]; auto.
    { intros x Hx Hi. apply (Hd x Hx). simpl in *. rewrite app_nil_r in Hi; auto. }
    split; auto. intros x. etransitivity; [apply I|]. rewrite (fv_list x W N). unfold fv; simpl. rewrite !app_nil_r. tauto.
  - assert (W : Forall (wfx S) args) by (destruct HW as (? & ? & ?); apply wfx_args; auto).
    destruct (@fn_seq S args H W) with (res := res) as [D I]; auto; try apply HW.
    split; auto. intros x. etransitivity; [apply I|]. rewrite (fv_list x W); [|apply HW]. unfold fv; simpl. tauto.
  - destruct (wfx_lam HW) as (W & N & D1 & D2). simpl in Hd.
    destruct (IHe _ res W Hr) as [D I].
    { intros x Hx Hb. apply (Hd x Hx), in_or_app; auto. }
    split; [apply set_remove_all_NoDup; auto|]. intros x. rewrite set_remove_all_In, I. unfold fv; simpl.
    rewrite in_app_iff. split; [tauto|]. intros [Hx|Hx]; [|tauto]. split; auto. intros Hp. apply (Hd x Hx), in_or_app; auto.
  - destruct (wfx_br HW) as (W & B1 & B2 & B3). simpl in Hd.
    destruct (IHe _ res W Hr) as [D I].
    { intros x Hx Hb. apply (Hd x Hx), in_or_app; auto. }
    assert (G : forall brs' r0, incl brs' brs -> NoDup (flat_map (fun br => snd (fst br) ++ binders (snd br)) brs') ->
       NoDup r0 -> (forall x, In x r0 -> ~ In x (flat_map (fun br => snd (fst br) ++ binders (snd br)) brs')) ->
       let r := fold_left (fun r br => set_remove_all (snd (fst br)) (free_names (snd br) r)) brs' r0 in
       NoDup r /\ forall x, In x r <-> In x r0 \/ (exists br, In br brs' /\ fv (snd br) x /\ ~ In x (snd (fst br)))).
    { induction brs' as [|br brs' IH]; intros r0 Hi HN Hr0 Hd0; simpl in *.
      - split; auto. intros x. split; auto. intros [?|(? & [] & _)]; auto.
      - apply NoDup_app_iff in HN as (N1 & N2 & N3).
        rewrite Forall_forall in H. assert (Hbr : In br brs) by (apply Hi; left; auto).
        destruct (B3 br Hbr) as (Wb & Nb & Db1 & Db2).
        destruct (H br Hbr _ r0 Wb Hr0) as [D' I'].
        { intros x Hx Hb. apply (Hd0 x Hx). rewrite !in_app_iff; auto. }
        destruct (IH (set_remove_all (snd (fst br)) (free_names (snd br) r0))) as [D'' I''].
        + intros y Hy. apply Hi; right; auto.
        + auto.
        + apply set_remove_all_NoDup; auto.
        + intros x Hx Hb. rewrite set_remove_all_In, I' in Hx. destruct Hx as [[Hx|Hx] Hx'].
          * apply (Hd0 x Hx). apply in_or_app; auto.
          * apply (fv_scope Wb) in Hx. apply in_app_iff in Hx as [Hx|Hx]; [tauto|].
            apply in_flat_map in Hb as (br' & Hbr' & Hb).
            destruct HW as (_ & _ & HWd). apply (HWd x); auto. simpl. apply in_or_app; right.
            apply in_flat_map. exists br'. split; auto. apply Hi; right; auto.
        + split; auto. intros x. rewrite I'', set_remove_all_In, I'. split.
          * intros [[[Hx|Hx] Hx']|(b & Hb & Hx)]; auto; right; [exists br|exists b]; auto.
          * intros [Hx|(b & [<-|Hb] & Hx)].
            -- left; split; auto. intros Hp. apply (Hd0 x Hx). rewrite !in_app_iff; auto.
            -- left; tauto.
            -- right; exists b; auto. }
    destruct (G brs (free_names e res)) as [D' I']; auto using incl_refl.
    { intros x Hx Hb. apply I in Hx as [Hx|Hx].
      - apply (Hd x Hx), in_or_app; auto.
      - apply (fv_scope W) in Hx. destruct HW as (_ & _ & HWd). apply (HWd x); auto. simpl. apply in_or_app; auto. }
    split; auto. intros x. rewrite I', I. unfold fv; simpl. rewrite !in_app_iff. split.
    + intros [[Hx|[Hx Hx']]|(br & Hbr & (Hu & Hb) & Hp)]; auto; right; (split; [|intros [Hy|Hy]]).
      * auto.
      * auto.
      * assert (Hs : In x S) by (apply (fv_scope W); split; auto).
        destruct HW as (_ & _ & HWd). apply (HWd x); auto. simpl; apply in_or_app; auto.
      * right. apply in_flat_map; eauto.
      * assert (Hs : In x S). { destruct (B3 br Hbr) as (Wb & _). assert (Q : fv (snd br) x) by (split; auto).
          apply (fv_scope Wb) in Q. apply in_app_iff in Q; tauto. }
        destruct HW as (_ & _ & HWd). apply (HWd x); auto. simpl; apply in_or_app; auto.
      * assert (Hs : In x S). { destruct (B3 br Hbr) as (Wb & _). assert (Q : fv (snd br) x) by (split; auto).
          apply (fv_scope Wb) in Q. apply in_app_iff in Q; tauto. }
        destruct HW as (_ & _ & HWd). apply (HWd x); auto. simpl; apply in_or_app; auto.
    + intros [Hx|[[Hu|Hu] Hb]]; auto.
      * left; right; split; auto.
      * right. apply in_flat_map in Hu as (br & Hbr & Hu). exists br. repeat split; auto.
        -- intros Hy. apply Hb. right. apply in_flat_map. exists br; split; auto. apply in_or_app; auto.
        -- intros Hy. apply Hb. right. apply in_flat_map. exists br; split; auto. apply in_or_app; auto.
  - assert (W : Forall (wfx S) fs) by (destruct HW as (? & ? & ?); apply wfx_args; auto).
    destruct (@fn_seq S fs H W) with (res := res) as [D I]; auto; try apply HW.
    split; auto. intros x. etransitivity; [apply I|]. rewrite (fv_list x W); [|apply HW]. unfold fv; simpl. tauto.
  - destruct (wfx_let HW) as (Wv & We & Hn1 & Hn2 & Hn3 & Hve). simpl in Hd.
    destruct (IHe1 _ res Wv Hr) as [D1 I1].
    { intros x Hx Hb. apply (Hd x Hx). right; apply in_or_app; auto. }
    destruct (IHe2 _ (free_names e1 res) We D1) as [D2 I2].
    { intros x Hx Hb. apply I1 in Hx as [Hx|Hx]; [apply (Hd x Hx); right; apply in_or_app; auto|].
      apply (fv_scope Wv) in Hx. destruct We as (_ & _ & Hd'). apply (Hd' x); simpl; auto. }
    split; [apply NoDup_filter; auto|]. intros x. rewrite set_remove_In, I2, I1. unfold fv; simpl. rewrite !in_app_iff.
    split.
    + intros [[[Hx|Hx]|Hx] Hne]; auto; right.
      * split; [tauto|]. apply (fv_scope Wv) in Hx. destruct HW as (_ & _ & HWd). intros Hq. apply (HWd x); auto. simpl. rewrite in_app_iff. auto.
      * split; [tauto|]. apply (fv_scope We) in Hx. destruct Hx as [<-|Hx]; [tauto|]. destruct HW as (_ & _ & HWd). intros Hq. apply (HWd x); auto. simpl. rewrite in_app_iff; auto.
    + intros [Hx|[[Hx|Hx] Hq]].
      * split; auto. intros ->. apply (Hd n); auto.
      * split; [tauto|]. intros ->; tauto.
      * split; [tauto|]. intros ->; tauto.
  - destruct (wfx_rec HW) as (Wv & We & Hn1 & Hn2 & Hn3 & Hve). simpl in Hd.
    destruct (IHe1 _ res Wv Hr) as [D1 I1].
    { intros x Hx Hb. apply (Hd x Hx). right; apply in_or_app; auto. }
    destruct (IHe2 _ (free_names e1 res) We D1) as [D2 I2].
    { intros x Hx Hb. apply I1 in Hx as [Hx|Hx]; [apply (Hd x Hx); right; apply in_or_app; auto|].
      apply (fv_scope Wv) in Hx. destruct We as (_ & _ & Hd'). apply (Hd' x); simpl; auto. }
    split; [apply NoDup_filter; auto|]. intros x. rewrite set_remove_In, I2, I1. unfold fv; simpl. rewrite !in_app_iff.
    split.
    + intros [[[Hx|Hx]|Hx] Hne]; auto; right.
      * split; [tauto|]. apply (fv_scope Wv) in Hx. destruct Hx as [<-|Hx]; [tauto|]. destruct HW as (_ & _ & HWd). intros Hq. apply (HWd x); auto. simpl. rewrite in_app_iff. auto.
      * split; [tauto|]. apply (fv_scope We) in Hx. destruct Hx as [<-|Hx]; [tauto|]. destruct HW as (_ & _ & HWd). intros Hq. apply (HWd x); auto. simpl. rewrite in_app_iff; auto.
    + intros [Hx|[[Hx|Hx] Hq]].
      * split; auto. intros ->. apply (Hd n); auto.
      * split; [tauto|]. intros ->; tauto.
      * split; [tauto|]. intros ->; tauto.
  - apply (IHe S res); auto.
  - apply (IHe S res); auto.
  - split; auto. intros x; unfold fv; simpl; tauto.
Qed.

(** ** The resolver in canonical form: a stack of distinct names *)
Fixpoint cnames (stk : list name) : list (name * nat) :=
  match stk with [] => [] | x :: r => (x, length r) :: cnames r end.
Definition can (stk : list name) (known : list (name * lval)) : resolver := mkRes (cnames stk) stk known.

Lemma map_remove_notin {A} n (l : list (name * A)) : ~ In n (map fst l) -> map_remove n l = l.
Proof.
  induction l as [|[x v] l IH]; simpl; auto. intros H. destruct (Nat.eqb_spec x n); [subst; tauto|].
  simpl. f_equal. apply IH; tauto.
Qed.
Lemma cnames_fst stk : map fst (cnames stk) = stk.
Proof. induction stk; simpl; f_equal; auto. Qed.
Lemma cnames_length stk : length (cnames stk) = length stk.
Proof. induction stk; simpl; auto. Qed.
Lemma r_add_can x stk known : ~ In x stk -> r_add x (can stk known) = can (x :: stk) known.
Proof. intros H. unfold r_add, can; simpl. rewrite map_remove_notin; auto. rewrite cnames_fst; auto. Qed.
Lemma r_remove_can x stk known : ~ In x stk -> r_remove x (can (x :: stk) known) = Some (can stk known).
Proof.
  intros H. unfold r_remove, can; simpl. rewrite Nat.eqb_refl. simpl. rewrite map_remove_notin; auto.
  rewrite cnames_fst; auto.
Qed.
Lemma r_add_all_can xs : forall stk known, NoDup xs -> (forall x, In x xs -> ~ In x stk) ->
  r_add_all xs (can stk known) = can (rev xs ++ stk) known.
Proof.
  induction xs as [|x xs IH]; intros stk known Hn Hd; auto. inversion Hn; subst.
  change (r_add_all (x :: xs) (can stk known)) with (r_add_all xs (r_add x (can stk known))).
  rewrite r_add_can by (apply Hd; left; auto). rewrite IH; auto.
  - simpl. rewrite <- app_assoc. reflexivity.
  - intros y Hy [<-|Hy']; [tauto|]. apply (Hd y); auto. right; auto.
Qed.
Lemma r_remove_all_can xs : forall stk known, NoDup xs -> (forall x, In x xs -> ~ In x stk) ->
  r_remove_all xs (can (xs ++ stk) known) = Some (can stk known).
Proof.
  induction xs as [|x xs IH]; intros stk known Hn Hd; auto. inversion Hn; subst.
  cbn [r_remove_all app]. rewrite r_remove_can.
  - apply IH; auto. intros y Hy; apply Hd; right; auto.
  - rewrite in_app_iff. intros [?|?]; auto. apply (Hd x); auto. left; auto.
Qed.
Lemma r_remove_rev xs stk known : NoDup xs -> (forall x, In x xs -> ~ In x stk) ->
  r_remove_all (rev xs) (can (rev xs ++ stk) known) = Some (can stk known).
Proof. intros H1 H2. apply r_remove_all_can; [apply NoDup_rev; auto|]. intros x Hx; apply H2, in_rev; auto. Qed.

Lemma lookup_cnames x stk : NoDup stk -> In x stk ->
  exists i, lookup x (cnames stk) = Some i /\ nth_error (rev stk) i = Some x.
Proof.
  induction stk as [|y stk IH]; simpl; [tauto|]. intros Hn H. inversion Hn; subst.
  destruct (Nat.eqb_spec x y) as [->|Hne].
  - exists (length stk). split; auto. rewrite nth_error_app2; rewrite rev_length; auto. rewrite Nat.sub_diag; auto.
  - destruct H as [H|H]; [congruence|]. destruct (IH H3 H) as (i & H1 & H4). exists i; split; auto.
    rewrite nth_error_app1; auto. apply nth_error_Some. congruence.
Qed.
Lemma lookup_In {A} x (l : list (name * A)) : In x (map fst l) -> exists v, lookup x l = Some v /\ In (x, v) l.
Proof.
  induction l as [|[y v] l IH]; simpl; [tauto|]. destruct (Nat.eqb_spec x y) as [->|Hne].
  - intros _. eauto.
  - intros [?|H]; [congruence|]. destruct (IH H) as (w & H1 & H2). eauto.
Qed.
Lemma lookup_notin {A} x (l : list (name * A)) : ~ In x (map fst l) -> lookup x l = None.
Proof.
  induction l as [|[y v] l IH]; simpl; auto. destruct (Nat.eqb_spec x y) as [->|Hne]; intros H; [tauto|]. apply IH; tauto.
Qed.

Definition kn (known : list (name * lval)) : list name := map fst known.

(** What [capture] computes. *)
Definition notknown (known : list (name * lval)) (ns : list name) : list name :=
  filter (fun x => negb (mem x (kn known))) ns.
Lemma notknown_In known ns x : In x (notknown known ns) <-> In x ns /\ ~ In x (kn known).
Proof. unfold notknown. rewrite filter_In, negb_true_iff, mem_false. tauto. Qed.
Lemma capture_can stk known ns : NoDup stk -> forall stk', NoDup ns -> (forall x, In x ns -> ~ In x stk') ->
  (forall x, In x ns -> In x stk \/ In x (kn known)) ->
  exists caps, capture (can stk known) ns (can stk' known) = Some (caps, can (rev (notknown known ns) ++ stk') known) /\
    Forall2 (fun x i => nth_error (rev stk) i = Some x) (notknown known ns) caps.
Proof.
  intros Hs. induction ns as [|c ns IH]; intros stk' Hn Hd Hi; simpl.
  - exists []; split; auto.
  - inversion Hn; subst. unfold r_lookup; simpl. destruct (mem c (kn known)) eqn:E.
    + simpl. apply mem_In in E. destruct (lookup_In _ _ E) as (v & -> & _). apply IH; auto; intros x Hx; [apply Hd|apply Hi]; right; auto.
    + simpl. apply mem_false in E. rewrite (lookup_notin _ _ E).
      destruct (Hi c) as [Hc|Hc]; [left; auto| |tauto].
      destruct (lookup_cnames _ Hs Hc) as (i & -> & Hi').
      rewrite r_add_can by (apply Hd; left; auto).
      destruct (IH (c :: stk')) as (caps & -> & HF); auto.
      { intros x Hx [<-|Hx']; [tauto|]. apply (Hd x); auto. right; auto. }
      { intros x Hx; apply Hi; right; auto. }
      exists (i :: caps). rewrite <- app_assoc. split; auto.
Qed.

Section Fix.
Variable ord : expr -> list name -> list name.
Hypothesis Hord : forall e l, Permutation (ord e l) l.

(** Scope of a resolver. *)
Definition sc (stk : list name) (known : list (name * lval)) : list name := stk ++ kn known.

(** The pieces of compiling a function. *)
Record lamparts (n : option name) (ps : list name) (body : expr) (stk : list name) (known : list (name * lval))
   (capn : list name) (caps : list nat) : Prop := {
  lp_caps : Forall2 (fun x i => nth_error (rev stk) i = Some x) capn caps;
  lp_stk : incl capn stk;
  lp_nodup : NoDup (match n with Some x => [x] | None => [] end ++ rev ps ++ rev capn);
  lp_known : forall x, In x (match n with Some x => [x] | None => [] end ++ rev ps ++ rev capn) -> ~ In x (kn known);
  lp_wfx : wfx (sc (match n with Some x => [x] | None => [] end ++ rev ps ++ rev capn) known) body
}.

Definition recl (n : option name) : list name := match n with Some x => [x] | None => [] end.

Lemma lam_parts S stk known ps body (captured : list name) :
  S = sc stk known -> NoDup stk -> (forall x, In x stk -> ~ In x (kn known)) ->
  wfx S (ELam ps body) -> captured = ord (ELam ps body) (free_names (ELam ps body) []) ->
  NoDup captured /\ (forall x, In x captured -> In x stk \/ In x (kn known)) /\
  forall caps, Forall2 (fun x i => nth_error (rev stk) i = Some x) (notknown known captured) caps ->
    lamparts None (map fst ps) body stk known (notknown known captured) caps.
Proof.
  intros -> Hs Hsk HW ->.
  destruct (@free_names_spec (ELam ps body) _ [] HW (NoDup_nil _)) as [D I]; [simpl; tauto|].
  set (captured := ord (ELam ps body) (free_names (ELam ps body) [])).
  assert (P : Permutation captured (free_names (ELam ps body) [])) by apply Hord.
  assert (Hin : forall x, In x captured <-> fv (ELam ps body) x).
  { intros x. split; intros Hx.
    - apply (Permutation_in x P) in Hx. apply I in Hx. simpl in Hx; tauto.
    - apply (Permutation_in x (Permutation_sym P)). apply I; auto. }
  assert (Hsc : forall x, In x captured -> In x stk \/ In x (kn known)).
  { intros x Hx. apply Hin in Hx. apply (fv_scope HW) in Hx. apply in_app_iff in Hx; auto. }
  assert (Hnd : NoDup captured) by (eapply Permutation_NoDup; [apply Permutation_sym, P|auto]).
  split; auto. split; auto. intros caps HF.
  destruct (wfx_lam HW) as (W & N & D1 & D2).
  assert (Hcap : forall x, In x (notknown known captured) -> In x stk).
  { intros x Hx. apply notknown_In in Hx as [Hx Hk]. destruct (Hsc x Hx); tauto. }
  constructor; auto.
  - simpl. apply NoDup_app_iff. split; [apply NoDup_rev; auto|]. split; [apply NoDup_rev, NoDup_filter; auto|].
    intros x Hx Hx'. rewrite <- in_rev in *. apply (D2 x Hx). apply in_or_app; left; auto.
  - simpl. intros x Hx. rewrite in_app_iff, <- !in_rev in Hx. destruct Hx as [Hx|Hx].
    + intros Hk. apply (D2 x Hx). apply in_or_app; auto.
    + apply notknown_In in Hx; tauto.
  - simpl. destruct W as (Ws & Wn & Wd). repeat split; auto.
    + eapply scoped_weaken; [exact Ws|]. intros x Hu Hx. unfold sc. rewrite !in_app_iff, <- !in_rev.
      unfold sc in Hx. rewrite !in_app_iff in Hx. destruct Hx as [Hx|Hx]; auto.
      destruct (in_dec Nat.eq_dec x (map fst ps)) as [?|Hp]; auto.
      destruct (in_dec Nat.eq_dec x (kn known)) as [?|Hk]; auto.
      left. right. apply notknown_In. split; auto. apply Hin. split; auto. simpl. rewrite in_app_iff.
      intros [?|Hb]; auto. apply (Wd x Hb). rewrite in_app_iff. right. unfold sc. rewrite in_app_iff. tauto.
    + intros x Hx Hi. apply (Wd x Hx). unfold sc in *. rewrite !in_app_iff, <- !in_rev in *.
      destruct Hi as [[Hi|Hi]|Hi]; auto.
Qed.

Lemma strip_wfx S v ps b : strip_pis v = ELam ps b -> wfx S v -> wfx S (ELam ps b).
Proof.
  intros E (H1 & H2 & H3). unfold wfx. rewrite <- (strip_scoped _ _ E).
  replace (binders (ELam ps b)) with (binders v); auto. apply (strip_pis_binders _ E).
Qed.

Lemma rec_parts S stk known n t v e ps body (captured : list name) :
  S = sc stk known -> NoDup stk -> (forall x, In x stk -> ~ In x (kn known)) ->
  wfx S (ELetRec n t v e) -> strip_pis v = ELam ps body ->
  captured = ord (ELam ps body) (set_remove n (free_names (ELam ps body) [])) ->
  NoDup captured /\ (forall x, In x captured -> In x stk \/ In x (kn known)) /\
  forall caps, Forall2 (fun x i => nth_error (rev stk) i = Some x) (notknown known captured) caps ->
    lamparts (Some n) (map fst ps) body stk known (notknown known captured) caps.
Proof.
  intros -> Hs Hsk HW0 Est ->. destruct (wfx_rec HW0) as (HWv & _ & Hn & Hnv & _).
  assert (HW := strip_wfx Est HWv).
  rewrite (strip_pis_binders _ Est) in Hnv. rewrite in_app_iff in Hnv.
  destruct (@free_names_spec (ELam ps body) _ [] HW (NoDup_nil _)) as [D I]; [simpl; tauto|].
  set (captured := ord (ELam ps body) (set_remove n (free_names (ELam ps body) []))).
  assert (P : Permutation captured (set_remove n (free_names (ELam ps body) []))) by apply Hord.
  assert (Hin : forall x, In x captured <-> fv (ELam ps body) x /\ x <> n).
  { intros x. split; intros Hx.
    - apply (Permutation_in x P) in Hx. rewrite set_remove_In, I in Hx. simpl in Hx; tauto.
    - apply (Permutation_in x (Permutation_sym P)). rewrite set_remove_In, I. tauto. }
  assert (Hsc : forall x, In x captured -> In x stk \/ In x (kn known)).
  { intros x Hx. apply Hin in Hx as [Hx Hne]. apply (fv_scope HW) in Hx. destruct Hx as [?|Hx]; [congruence|].
    apply in_app_iff in Hx; auto. }
  assert (Hnd : NoDup captured).
  { eapply Permutation_NoDup; [apply Permutation_sym, P|]. apply NoDup_filter; auto. }
  split; auto. split; auto. intros caps HF.
  destruct (wfx_lam HW) as (W & N & D1 & D2).
  assert (Hcap : forall x, In x (notknown known captured) -> In x stk).
  { intros x Hx. apply notknown_In in Hx as [Hx Hk]. destruct (Hsc x Hx); tauto. }
  unfold sc in Hn. rewrite in_app_iff in Hn.
  constructor; auto.
  - simpl. constructor.
    { rewrite in_app_iff, <- !in_rev. intros [Hx|Hx]; [tauto|]. apply Hcap in Hx. tauto. }
    apply NoDup_app_iff. split; [apply NoDup_rev; auto|]. split; [apply NoDup_rev, NoDup_filter; auto|].
    intros x Hx Hx'. rewrite <- in_rev in *. apply (D2 x Hx). right. apply in_or_app; left; auto.
  - simpl. intros x Hx. rewrite in_app_iff, <- !in_rev in Hx. destruct Hx as [<-|[Hx|Hx]].
    + tauto.
    + intros Hk. apply (D2 x Hx). right. apply in_or_app; auto.
    + apply notknown_In in Hx; tauto.
  - simpl. destruct W as (Ws & Wn & Wd). repeat split; auto.
    + eapply scoped_weaken; [exact Ws|]. intros x Hu Hx. unfold sc. simpl. rewrite !in_app_iff, <- !in_rev.
      unfold sc in Hx. rewrite !in_app_iff in Hx. simpl in Hx. rewrite in_app_iff in Hx. destruct Hx as [Hx|Hx]; auto.
      destruct (Nat.eq_dec n x) as [?|Hne]; auto.
      destruct (in_dec Nat.eq_dec x (map fst ps)) as [?|Hp]; auto.
      destruct (in_dec Nat.eq_dec x (kn known)) as [?|Hk]; auto.
      right. left. right. apply notknown_In. split; auto. apply Hin. split; auto. split; auto. simpl. rewrite in_app_iff.
      intros [?|Hb]; auto. apply (Wd x Hb). rewrite in_app_iff. right. right. unfold sc. rewrite in_app_iff. tauto.
    + intros x Hx Hi. apply (Wd x Hx). unfold sc in *. simpl in Hi. rewrite !in_app_iff, <- !in_rev in *. simpl.
      rewrite in_app_iff. destruct Hi as [Hi|[[Hi|Hi]|Hi]]; auto.
Qed.

(** ** Compilation succeeds and leaves the resolver as it was *)
Lemma lcompile_rec n t v e r :
  lcompile ord (ELetRec n t v e) r =
  match strip_pis v with
  | ELam ps body =>
    let captured := ord (ELam ps body) (set_remove n (free_names (ELam ps body) [])) in
    do (rec_caps, rec_body) <-
      (do (caps, inner) <- capture r captured (r_other r);
       do (cb, inner1) <- lcompile ord body (r_add n (r_add_all (map fst ps) inner));
       do inner2 <- r_remove n inner1;
       do inner3 <- r_remove_all (rev (map fst ps)) inner2;
       if length (r_names inner3) =? length caps then Some (caps, cb) else None);
    do (ce, r1) <- lcompile ord e (r_add n r);
    do r2 <- r_remove n r1;
    Some (LcLetRec rec_caps rec_body ce, r2)
  | _ => None
  end.
Proof.
  cbn [lcompile]. induction v; simpl strip_pis; auto.
Qed.

Definition comp_ok (e : expr) : Prop := forall rec tail stk known, NoDup stk ->
  (forall x, In x stk -> ~ In x (kn known)) -> wfx (sc stk known) e -> shape rec tail e = true ->
  exists c, lcompile ord e (can stk known) = Some (c, can stk known).

Lemma mapS_ok args rec tail : Forall comp_ok args -> forall stk known, NoDup stk ->
  (forall x, In x stk -> ~ In x (kn known)) -> Forall (wfx (sc stk known)) args ->
  forallb (shape rec tail) args = true ->
  exists cs, mapS (lcompile ord) args (can stk known) = Some (cs, can stk known).
Proof.
  intros HF stk known H1 H2 HW HS. induction args as [|a args IH]; simpl; [eauto|].
  inversion HF; inversion HW; subst. simpl in HS. apply andb_prop in HS as [S1 S2].
  destruct (H3 rec tail stk known) as [c ->]; auto. destruct IH as [cs ->]; auto. eauto.
Qed.
Lemma takeS_mapS {A B S} (f : A -> S -> option (B * S)) l : forall s, takeS f l (length l) s = mapS f l s.
Proof. induction l as [|a l IH]; intros s; simpl; auto. destruct (f a s) as [[b s1]|]; auto. rewrite IH; auto. Qed.

Lemma lcompile_total e : comp_ok e.
Proof.
  induction e using expr_ind_rec; intros rec tail stk known H1 H2 HW HS.
  - simpl; eauto.
  - simpl; eauto.
  - simpl; eauto.
  - destruct HW as (Hs & _). simpl in Hs. apply mem_In in Hs. simpl. unfold r_lookup; simpl.
    destruct (in_dec Nat.eq_dec n (kn known)) as [Hk|Hk].
    + destruct (lookup_In _ _ Hk) as (v & -> & _). eauto.
    + rewrite (lookup_notin _ _ Hk). apply in_app_iff in Hs as [Hs|Hs]; [|tauto].
      destruct (lookup_cnames _ H1 Hs) as (i & -> & _). eauto.
  - destruct (wfx_call HW) as [W N]. simpl in HS. apply andb_prop in HS as [HS _]. apply andb_prop in HS as [S1 S2].
    inversion W; subst. simpl. destruct (IHe rec false stk known) as [c ->]; auto.
    destruct (@mapS_ok args rec false) with (stk := stk) (known := known) as [cs ->]; eauto.
  - destruct (wfx_if HW) as [W N]. simpl in HS. apply andb_prop in HS as [HS S3]. apply andb_prop in HS as [S1 S2].
    inversion W as [|? ? W1 W']; inversion W' as [|? ? W2 W'']; inversion W'' as [|? ? W3 _]; subst. simpl.
    destruct (IHe1 rec false stk known) as [c1 ->]; auto. destruct (IHe2 rec tail stk known) as [c2 ->]; auto.
    destruct (IHe3 rec tail stk known) as [c3 ->]; eauto.
  - destruct (wfx_op HW) as [W N]. simpl in HS. apply andb_prop in HS as [S1 S2].
    inversion W as [|? ? W1 W']; inversion W' as [|? ? W2 W'']; subst. simpl.
    destruct (IHe1 rec false stk known) as [c1 ->]; auto. destruct (IHe2 rec false stk known) as [c2 ->]; eauto.
  - assert (W : Forall (wfx (sc stk known)) args) by (destruct HW as (? & ? & ?); apply wfx_args; auto).
    simpl in HS. apply andb_prop in HS as [S1 S2]. apply Nat.eqb_eq in S1. simpl. rewrite <- S1, takeS_mapS.
    destruct (@mapS_ok args rec false) with (stk := stk) (known := known) as [cs ->]; eauto.
  - destruct (@lam_parts _ stk known ps e _ eq_refl H1 H2 HW eq_refl) as (P1 & P2 & P3).
    simpl. set (captured := ord _ _) in *.
    destruct (@capture_can stk known captured H1 [] P1) as (caps & HC & HF); auto.
    change (r_other (can stk known)) with (can [] known). rewrite HC. rewrite app_nil_r.
    destruct (P3 caps HF) as [_ _ Q1 Q2 Q3]. simpl in Q1, Q2, Q3. apply NoDup_app_iff in Q1 as (Q1a & Q1b & Q1c).
    assert (Nps : NoDup (map fst ps)) by (rewrite <- rev_involutive; apply NoDup_rev; auto).
    assert (Dps : forall x, In x (map fst ps) -> ~ In x (rev (notknown known captured))).
    { intros x Hx. apply Q1c. rewrite <- in_rev; auto. }
    rewrite r_add_all_can by auto.
    destruct (IHe None true (rev (map fst ps) ++ rev (notknown known captured)) known) as [cb ->]; auto.
    { apply NoDup_app_iff; auto. }
    rewrite r_remove_rev by auto. simpl. rewrite cnames_length, rev_length, (Forall2_len HF), Nat.eqb_refl. eauto.
  - destruct (wfx_br HW) as (W & B1 & B2 & B3). simpl in HS. apply andb_prop in HS as [S1 S2].
    simpl. destruct (IHe rec false stk known) as [cd ->]; auto.
    match goal with |- context [mapS ?f brs] => set (F := f) end.
    assert (G : forall l, incl l brs -> exists cs, mapS F l (can stk known) = Some (cs, can stk known)).
    { induction l as [|br l IH]; intros Hi; simpl; [eauto|].
      assert (Hbr : In br brs) by (apply Hi; left; auto).
      destruct (B3 br Hbr) as (Wb & Nb & Db1 & Db2). unfold F at 1.
      assert (Dst : forall x, In x (snd (fst br)) -> ~ In x stk).
      { intros x Hx Hx'. apply (Db2 x Hx), in_or_app; auto. }
      rewrite r_add_all_can; auto.
      rewrite Forall_forall in H. rewrite forallb_forall in S2.
      destruct (H br Hbr rec tail (rev (snd (fst br)) ++ stk) known) as [cb ->].
      - apply NoDup_app_iff. split; [apply NoDup_rev; auto|]. split; auto. intros x Hx. apply Dst, in_rev; auto.
      - intros x Hx. apply in_app_iff in Hx as [Hx|Hx]; auto. intros Hk. apply in_rev in Hx.
        apply (Db2 x Hx), in_or_app; auto.
      - apply (wfx_incl Wb).
        + intros x. unfold sc. rewrite !in_app_iff, <- in_rev. tauto.
        + intros x Hx Hi'. destruct Wb as (_ & _ & Wd). apply (Wd x Hx). unfold sc in *. rewrite !in_app_iff, <- in_rev in *. tauto.
      - apply S2; auto.
      - rewrite r_remove_rev by auto. destruct IH as [cs ->]; [|eauto].
        intros y Hy; apply Hi; right; auto. }
    destruct (G brs (incl_refl _)) as [cs ->]. eauto.
  - assert (W : Forall (wfx (sc stk known)) fs) by (destruct HW as (? & ? & ?); apply wfx_args; auto).
    simpl in HS. simpl. destruct (@mapS_ok fs rec false) with (stk := stk) (known := known) as [cs ->]; eauto.
  - destruct (wfx_let HW) as (Wv & We & Hn1 & _). simpl in HS. apply andb_prop in HS as [S1 S2].
    simpl. destruct (IHe1 rec false stk known) as [cv ->]; auto.
    unfold sc in Hn1. rewrite in_app_iff in Hn1.
    rewrite r_add_can by tauto. destruct (IHe2 rec tail (n :: stk) known) as [ce ->]; auto.
    + constructor; tauto.
    + intros x [<-|Hx]; auto.
    + rewrite r_remove_can by tauto. eauto.
  - assert (HW' := HW). destruct (wfx_rec HW') as (Wv & We & Hn1 & _). simpl in HS. apply andb_prop in HS as [S1 S2].
    rewrite lcompile_rec. destruct (strip_pis e1) eqn:Est; try discriminate S1.
    destruct (@rec_parts _ stk known n t e1 e2 ps e _ eq_refl H1 H2 HW Est eq_refl) as (P1 & P2 & P3).
    cbn zeta. set (captured := ord _ _) in *.
    destruct (@capture_can stk known captured H1 [] P1) as (caps & HC & HF); auto.
    change (r_other (can stk known)) with (can [] known). rewrite HC. rewrite app_nil_r.
    destruct (P3 caps HF) as [_ _ Q1 Q2 Q3]. cbn [app] in Q1, Q2, Q3. inversion Q1 as [|? ? Q0 Q1']; subst.
    assert (Q1s := Q1'). apply NoDup_app_iff in Q1' as (Q1a & Q1b & Q1c).
    assert (Nps : NoDup (map fst ps)) by (rewrite <- rev_involutive; apply NoDup_rev; auto).
    assert (Dps : forall x, In x (map fst ps) -> ~ In x (rev (notknown known captured))).
    { intros x Hx. apply Q1c. rewrite <- in_rev; auto. }
    rewrite r_add_all_can, r_add_can by auto.
    destruct (H ps e eq_refl (Some (n, length ps)) true (n :: rev (map fst ps) ++ rev (notknown known captured)) known) as [cb ->]; auto.
    rewrite r_remove_can by auto.
    rewrite r_remove_rev by auto. simpl. rewrite cnames_length, rev_length, (Forall2_len HF), Nat.eqb_refl.
    unfold sc in Hn1. rewrite in_app_iff in Hn1.
    rewrite r_add_can by tauto. destruct (IHe2 rec tail (n :: stk) known) as [ce ->]; auto.
    + constructor; tauto.
    + intros x [<-|Hx]; auto.
    + rewrite r_remove_can by tauto. eauto.
  - simpl in *. eapply IHe; eauto.
  - simpl in *. eapply IHe; eauto.
  - simpl; eauto.
Qed.

(** ** Related values *)
Inductive Rv : value -> lval -> Prop :=
| RInt i : Rv (VInt i) (LVInt i)
| RBool b : Rv (VBool b) (LVBool b)
| RStr s : Rv (VStr s) (LVStr s)
| RComp c vs ls : Forall2 Rv vs ls -> Rv (VComp c vs) (LVComp c ls)
| RFn en rec ps body caps code capn known :
    let stk := recl rec ++ rev ps ++ rev capn in
    NoDup stk -> (forall x, In x stk -> ~ In x (kn known)) -> wfx (sc stk known) body ->
    (exists r t, shape r t body = true) ->
    lcompile ord body (can stk known) = Some (code, can stk known) ->
    Forall2 (fun x l => exists v, lookup x en = Some v /\ Rv v l) capn caps ->
    (forall x l, lookup x known = Some l -> exists v, lookup x en = Some v /\ Rv v l) ->
    Rv (VFn en rec ps body) (LVFn caps (match rec with Some _ => true | None => false end) code).

Definition Rlook (en : env) (x : name) (l : lval) : Prop := exists v, lookup x en = Some v /\ Rv v l.

Record erel (en : env) (stk : list name) (known : list (name * lval)) (c : cenv) : Prop := {
  er_pre : exists pre vals, ce_names c = pre ++ vals /\ length pre = ce_frame c /\ Forall2 (Rlook en) (rev stk) vals;
  er_known : forall x l, lookup x known = Some l -> Rlook en x l
}.

Lemma Rlook_ext en x y v l : x <> y -> Rlook en x l -> Rlook ((y, v) :: en) x l.
Proof. intros H (w & H1 & H2). exists w; split; auto. simpl. destruct (Nat.eqb_spec x y); congruence. Qed.

Lemma erel_lookup en stk known c x i : erel en stk known c -> nth_error (rev stk) i = Some x ->
  exists l, ce_lookup i c = Some l /\ Rlook en x l.
Proof.
  intros [(pre & vals & H1 & H2 & HF) _] Hi. unfold ce_lookup. rewrite H1, <- H2, nth_error_app2 by lia.
  replace (length pre + i - length pre) with i by lia.
  assert (i < length vals).
  { rewrite <- (Forall2_len HF). apply nth_error_Some. congruence. }
  destruct (nth_error_some vals H) as [l Hl]. exists l; split; auto.
  eapply (Forall2_nth _ HF Hi Hl).
Qed.

Lemma erel_add en stk known c x v l : erel en stk known c -> ~ In x stk -> ~ In x (kn known) -> Rv v l ->
  erel ((x, v) :: en) (x :: stk) known (ce_add l c).
Proof.
  intros [(pre & vals & H1 & H2 & HF) HK] Hx Hk Hv. split.
  - exists pre, (vals ++ [l]). simpl. rewrite H1, app_assoc. repeat split; auto.
    apply Forall2_app.
    + assert (G : Forall (fun y => y <> x) (rev stk)).
      { apply Forall_forall. intros y Hy ->. apply Hx, in_rev; auto. }
      clear -HF G. induction HF; constructor; inversion G; subst; auto. apply Rlook_ext; auto.
    + constructor; auto. exists v; split; auto. simpl. rewrite Nat.eqb_refl; auto.
  - intros y ly Hy. apply Rlook_ext; auto. intros ->. rewrite (lookup_notin _ _ Hk) in Hy. discriminate.
Qed.
Lemma ce_add_all_eq vs : forall c, ce_add_all vs c = mkCenv (ce_names c ++ vs) (ce_frame c).
Proof.
  induction vs as [|v vs IH]; intros c; simpl.
  - rewrite app_nil_r. destruct c; auto.
  - unfold ce_add_all in *. simpl. rewrite IH. simpl. rewrite <- app_assoc. auto.
Qed.
Lemma ce_remove_n_app vs : forall ns fr, ce_remove_n (length vs) (mkCenv (ns ++ vs) fr) = mkCenv ns fr.
Proof.
  induction vs as [|v vs IH] using rev_ind; intros ns fr; simpl.
  - rewrite app_nil_r; auto.
  - rewrite app_length, Nat.add_1_r. simpl. unfold ce_remove; simpl. rewrite app_assoc, removelast_last. apply IH.
Qed.
Lemma ce_remove_add l c : ce_remove (ce_add l c) = c.
Proof. destruct c. unfold ce_remove, ce_add; simpl. rewrite removelast_last; auto. Qed.
Lemma erel_add_all bs : forall en stk known c vs ls, erel en stk known c -> NoDup bs ->
  (forall x, In x bs -> ~ In x stk) -> (forall x, In x bs -> ~ In x (kn known)) -> Forall2 Rv vs ls ->
  length bs = length vs -> erel (add_all en bs vs) (rev bs ++ stk) known (ce_add_all ls c).
Proof.
  induction bs as [|b bs IH]; intros en stk known c vs ls HE HN Hd Hk HF HL.
  - destruct vs; simpl in HL; try lia. inversion HF; subst. auto.
  - destruct vs as [|v vs]; simpl in HL; try lia. inversion HF as [|? l ? ls' Hv HF']; subst. inversion HN; subst.
    simpl. rewrite <- app_assoc. simpl. apply IH; auto.
    + apply erel_add; auto; [apply Hd|apply Hk]; left; auto.
    + intros x Hx [<-|Hx']; [tauto|]. apply (Hd x); auto. right; auto.
    + intros x Hx; apply Hk; right; auto.
Qed.

(** ** Simulation *)
Definition rrel {A B} (R : A -> B -> Prop) (r : res A) (r' : res B) : Prop :=
  match r, r' with
  | Ok a, Ok b => R a b
  | Trap m, Trap m' => m = m'
  | OutOfFuel, OutOfFuel => True
  | _, _ => False
  end.
Definition rsim {A B} (R : A -> B -> Prop) (r : res A) (m : LM B) (c : cenv) : Prop :=
  r = Panic \/ exists r', m c = (r', c) /\ rrel R r r'.

Lemma rsim_bind {A B A' B'} (R : A -> B -> Prop) (R' : A' -> B' -> Prop) r m c f k :
  rsim R r m c -> (forall a b, r = Ok a -> R a b -> rsim R' (f a) (k b) c) -> rsim R' (bind r f) (lbind m k) c.
Proof.
  intros [->|(r' & E & H)] Hk; [left; auto|]. unfold lbind. unfold rsim. rewrite E.
  destruct r, r'; simpl in *; try tauto.
  - apply Hk; auto.
  - right. subst. eexists; split; [eauto|simpl; auto].
  - right. eexists; split; [eauto|simpl; auto].
Qed.
Lemma rsim_ret {A B} (R : A -> B -> Prop) a b c : R a b -> rsim R (Ok a) (lret b) c.
Proof. intros H. right. exists (Ok b). split; auto. Qed.
Lemma rsim_int v l c : Rv v l -> rsim eq (into_int v) (l_int l) c.
Proof. intros H; destruct H; simpl; try (left; reflexivity). right; eexists; split; [reflexivity|simpl; auto]. Qed.
Lemma rsim_bool v l c : Rv v l -> rsim eq (into_bool v) (l_bool l) c.
Proof. intros H; destruct H; simpl; try (left; reflexivity). right; eexists; split; [reflexivity|simpl; auto]. Qed.
Lemma rsim_str v l c : Rv v l -> rsim eq (into_string v) (l_str l) c.
Proof. intros H; destruct H; simpl; try (left; reflexivity). right; eexists; split; [reflexivity|simpl; auto]. Qed.

(** Clean-up undoing what was pushed. *)
Lemma rsim_then {A B} (R : A -> B -> Prop) r (m : LM B) f c c' : f c' = c -> rsim R r m c' ->
  rsim R r (fun c0 => l_then m f c') c.
Proof.
  intros Hf [->|(r' & E & H)]; [left; auto|]. right. exists r'. unfold l_then. rewrite E, Hf. auto.
Qed.

Definition lcall (n : nat) (f : lval) (args : list lval) : LM lval :=
  match f with
  | LVFn caps rec body =>
    match n with
    | O => lfail OutOfFuel
    | S k => fun c =>
      let prev := ce_frame c in
      let c0 := mkCenv (ce_names c) (length (ce_names c)) in
      let c1 := ce_add_all args (ce_add_all caps c0) in
      let c2 := if rec then ce_add f c1 else c1 in
      let (r, c3) := lrun k body c2 in
      let c4 := if rec then ce_remove c3 else c3 in
      let c5 := ce_remove_n (length caps) (ce_remove_n (length args) c4) in
      (r, mkCenv (ce_names c5) prev)
    end
  | _ => lfail Panic
  end.
Fixpoint lfind (n : nat) (tag : name) (fs : list lval) (l : list (name * lcode)) : LM lval :=
  match l with
  | [] => lfail Panic
  | (c', b) :: r =>
    if Nat.eqb c' tag then fun c => l_then (lrun n b) (ce_remove_n (length fs)) (ce_add_all fs c)
    else lfind n tag fs r
  end.
Definition lintr (n : nat) (i : intrinsic) (xs : list lcode) : LM lval :=
  let go := lrun n in
  match i, xs with
  | StringLen, x :: _ =>
    let! v := go x in let! s := l_str v in lret (LVInt (str_len s))
  | StringConcat, x :: y :: _ =>
    let! v := go x in let! s1 := l_str v in
    let! w := go y in let! s2 := l_str w in lret (LVStr (s1 ++ s2))
  | StringCharAt, x :: y :: _ =>
    let! v := go x in let! idx := l_int v in
    let! w := go y in let! s := l_str w in lret (LVInt (str_char_at idx s))
  | StringSubstring, x :: y :: z :: _ =>
    let! v := go x in let! start := l_int v in
    let! w := go y in let! len := l_int w in
    let! u := go z in let! s := l_str u in lret (LVStr (str_substring start len s))
  | StringFromChar, x :: _ =>
    let! v := go x in let! c := l_int v in lret (LVStr (str_from_char c))
  | IntToString, x :: _ =>
    let! v := go x in let! n := l_int v in lret (LVStr (int_to_string n))
  | _, _ => lfail Panic
  end.
Lemma lrun_call n f args : lrun n (LcCall f args) =
  (let! fv := lrun n f in
   match fv with LVFn _ _ _ => let! vs := lmapM (lrun n) args in lcall n fv vs | _ => lfail Panic end).
Proof. destruct n; reflexivity. Qed.
Lemma lrun_if n c t e : lrun n (LcIf c t e) =
  (let! cv := lrun n c in let! b := l_bool cv in if b then lrun n t else lrun n e).
Proof. destruct n; reflexivity. Qed.
Lemma lrun_op n a o b : lrun n (LcOp a o b) =
  (let! va := lrun n a in let! x := l_int va in let! vb := lrun n b in let! y := l_int vb in lret (lam_op o x y)).
Proof. destruct n; reflexivity. Qed.
Lemma lrun_intr n i xs : lrun n (LcIntr i xs) = lintr n i xs.
Proof. destruct n; reflexivity. Qed.
Lemma lrun_lam n caps b : lrun n (LcLam caps b) = (let! vs := l_captures caps in lret (LVFn vs false b)).
Proof. destruct n; reflexivity. Qed.
Lemma lrun_match n d brs : forall c, lrun n (LcMatch d brs) c =
  (let! dv := lrun n d in match dv with LVComp tag fs => lfind n tag fs brs | _ => lfail Panic end) c.
Proof.
  intros c. assert (G : forall m : lcode -> LM lval, (forall x, m x = lrun n x) -> forall tag fs,
    (fix find (l : list (name * lcode)) : LM lval :=
             match l with
             | [] => lfail Panic
             | (c', b) :: r =>
               if Nat.eqb c' tag then
                 fun c => l_then (m b) (ce_remove_n (length fs)) (ce_add_all fs c)
               else find r
             end) brs = lfind n tag fs brs).
  { intros m Hm tag fs. induction brs as [|[c' b] r IH]; auto. cbn. destruct (Nat.eqb c' tag); auto. rewrite Hm; auto. }
  destruct n; cbn [lrun]; unfold lbind;
  match goal with |- (let (_, _) := ?x in _) = _ => destruct x as [r c'] end;
  destruct r as [v| | |]; auto; destruct v; auto; rewrite G; auto.
Qed.
Lemma lrun_construct n c fs : lrun n (LcConstruct c fs) = (let! vs := lmapM (lrun n) fs in l_tagged c vs).
Proof. destruct n; reflexivity. Qed.
Lemma lrun_let n v e : lrun n (LcLet v e) =
  (let! vv := lrun n v in fun c => l_then (lrun n e) ce_remove (ce_add vv c)).
Proof. destruct n; reflexivity. Qed.
Lemma lrun_letrec n caps b rest : lrun n (LcLetRec caps b rest) =
  (let! vs := l_captures caps in fun c => l_then (lrun n rest) ce_remove (ce_add (LVFn vs true b) c)).
Proof. destruct n; reflexivity. Qed.

Lemma rsim_eq {A B} (R : A -> B -> Prop) r (m m' : LM B) c : m c = m' c -> rsim R r m' c -> rsim R r m c.
Proof. intros E [H|H]; [left; auto|right]. rewrite E; auto. Qed.
Lemma rsim_then' {A B} (R : A -> B -> Prop) r (m : LM B) f g c : f (g c) = c -> rsim R r m (g c) ->
  rsim R r (fun c0 => l_then m f (g c0)) c.
Proof. intros Hf [->|(r' & E & H)]; [left; auto|]. right. exists r'. unfold l_then. rewrite E, Hf. auto. Qed.

Definition lsim (n : nat) (e : expr) : Prop := forall rec tail stk known code en c,
  shape rec tail e = true -> NoDup stk -> (forall x, In x stk -> ~ In x (kn known)) -> wfx (sc stk known) e ->
  lcompile ord e (can stk known) = Some (code, can stk known) -> erel en stk known c ->
  rsim Rv (eval_o FnFirst n en e) (lrun n code) c.

Lemma mapS_lsim n args : forall rec tail stk known codes en c,
  Forall (lsim n) args -> forallb (shape rec tail) args = true ->
  NoDup stk -> (forall x, In x stk -> ~ In x (kn known)) -> Forall (wfx (sc stk known)) args ->
  mapS (lcompile ord) args (can stk known) = Some (codes, can stk known) -> erel en stk known c ->
  rsim (Forall2 Rv) (mapM (eval_o FnFirst n en) args) (lmapM (lrun n) codes) c.
Proof.
  induction args as [|a args IH]; intros rec tail stk known codes en c HL HT H1 H2 HW HC HE.
  - simpl in HC. injection HC as <-. simpl. apply rsim_ret; auto.
  - inversion HL as [|? ? L1 L2]; inversion HW as [|? ? W1 W2]; subst. simpl in HC.
    simpl in HT. apply andb_prop in HT as [HT1 HT2].
    destruct (@lcompile_total a rec tail stk known) as [ca E]; auto. rewrite E in HC.
    destruct (mapS (lcompile ord) args (can stk known)) as [[cs s2]|] eqn:EM; try discriminate. injection HC as <- ->.
    rewrite mapM_cons. cbn [lmapM]. eapply rsim_bind; [eapply L1; eauto|].
    intros v l _ Hv. eapply rsim_bind; [eapply IH; eauto|].
    intros vs ls _ Hvs. apply rsim_ret. constructor; auto.
Qed.

Lemma captures_sim en stk known c capn caps : erel en stk known c ->
  Forall2 (fun x i => nth_error (rev stk) i = Some x) capn caps ->
  exists ls, l_captures caps c = (Ok ls, c) /\ Forall2 (Rlook en) capn ls.
Proof.
  intros HE HF. unfold l_captures. induction HF as [|x i capn caps Hi HF IH].
  - exists []. split; auto.
  - destruct IH as (ls & E & HL). destruct (erel_lookup _ HE Hi) as (l & El & Hl).
    exists (l :: ls). split; [|constructor; auto]. cbn [lmapM]. unfold lbind. rewrite El. rewrite E. reflexivity.
Qed.

Lemma lfind_sim n c fs ls brs rec tail : forall cbrs en stk known cv, Forall2 Rv fs ls ->
  (forall br, In br brs -> lsim n (snd br)) ->
  NoDup stk -> (forall x, In x stk -> ~ In x (kn known)) ->
  (forall br, In br brs -> wfx (snd (fst br) ++ sc stk known) (snd br) /\ NoDup (snd (fst br)) /\
                           (forall x, In x (snd (fst br)) -> ~ In x (sc stk known))) ->
  forallb (fun br => shape rec tail (snd br)) brs = true ->
  mapS (fun (br : name * list name * expr) s =>
                do (cb, s1) <- lcompile ord (snd br) (r_add_all (snd (fst br)) s);
                do s2 <- r_remove_all (rev (snd (fst br))) s1;
                Some ((fst (fst br), cb), s2)) brs (can stk known) = Some (cbrs, can stk known) ->
  erel en stk known cv ->
  rsim Rv (match find_branch c brs with
           | Some (bs, b) => if length bs =? length fs then eval_o FnFirst n (add_all en bs fs) b else Panic
           | None => Panic
           end) (lfind n c ls cbrs) cv.
Proof.
  induction brs as [|[[c' bs] b] brs IH]; intros cbrs en stk known cv HF HL H1 H2 HW HT HC HE.
  - left; auto.
  - destruct (HW _ (or_introl eq_refl)) as (W & N & D). simpl in HT. apply andb_prop in HT as [HT1 HT2].
    cbn [fst snd] in *. cbn [mapS] in HC. cbn [fst snd] in HC.
    assert (D' : forall x, In x bs -> ~ In x stk) by (intros x Hx Hi; apply (D x Hx), in_or_app; auto).
    assert (X1 : NoDup (rev bs ++ stk)).
    { apply NoDup_app_iff. split; [apply NoDup_rev; auto|]. split; auto. intros x Hx; apply D', in_rev; auto. }
    assert (X2 : forall x, In x (rev bs ++ stk) -> ~ In x (kn known)).
    { intros x Hx. apply in_app_iff in Hx as [Hx|Hx]; auto. apply in_rev in Hx. intros Hk. apply (D x Hx), in_or_app; auto. }
    assert (X3 : wfx (sc (rev bs ++ stk) known) b).
    { apply (wfx_incl W).
      - intros x. unfold sc. rewrite !in_app_iff, <- in_rev. tauto.
      - intros x Hx Hi'. destruct W as (_ & _ & Wd). apply (Wd x Hx). unfold sc in *. rewrite !in_app_iff, <- in_rev in *. tauto. }
    destruct (@lcompile_total b rec tail (rev bs ++ stk) known) as [cb EC]; auto.
    rewrite r_add_all_can in HC by auto. rewrite EC in HC. rewrite r_remove_rev in HC by auto.
    match type of HC with context [mapS ?f brs ?s] => destruct (mapS f brs s) as [[cs s2]|] eqn:EM end; try discriminate.
    injection HC as <- ->. cbn [find_branch lfind]. destruct (Nat.eqb c' c).
    + destruct (length bs =? length fs) eqn:El; [|left; auto]. apply Nat.eqb_eq in El.
      apply rsim_then'.
      { rewrite ce_add_all_eq, ce_remove_n_app. destruct cv; auto. }
      apply (HL _ (or_introl eq_refl)) with (rec := rec) (tail := tail) (stk := rev bs ++ stk) (known := known); cbn [fst snd]; auto.
      * apply erel_add_all; auto. intros x Hx Hk. apply (D x Hx), in_or_app; auto.
    + apply IH with (stk := stk) (known := known); auto.
      * intros br Hbr. apply HL; right; auto.
      * intros br Hbr. apply HW; right; auto.
Qed.


Lemma lcall_sim n v l vs ls c : (forall k, k < n -> forall e, lsim k e) -> Rv v l -> Forall2 Rv vs ls ->
  rsim Rv (call_o FnFirst n v vs) (lcall n l ls) c.
Proof.
  intros IH Hv HF. destruct Hv as [| | | |en rec ps body caps code capn known stk N1 N2 W (r & t & Sh) EC HC HK];
    try (left; reflexivity).
  unfold call_o, lcall. destruct (length ps =? length vs) eqn:El; [|left; auto]. apply Nat.eqb_eq in El.
  destruct n as [|n]; [right; exists OutOfFuel; split; simpl; auto|].
  set (c0 := mkCenv (ce_names c) (length (ce_names c))).
  assert (E0 : erel en (rev capn) known (ce_add_all caps c0)).
  { split; auto. rewrite ce_add_all_eq. simpl. exists (ce_names c), caps. rewrite rev_involutive. auto. }
  assert (NN : NoDup ps /\ (forall x, In x ps -> ~ In x (rev capn))).
  { assert (Q := N1). unfold stk in Q. apply NoDup_app_iff in Q as (_ & Q & _). apply NoDup_app_iff in Q as (Q1 & _ & Q2).
    split; [rewrite <- rev_involutive; apply NoDup_rev; auto|]. intros x Hx. apply Q2. rewrite <- in_rev; auto. }
  destruct NN as [NN1 NN2].
  assert (E1 : erel (add_all en ps vs) (rev ps ++ rev capn) known (ce_add_all ls (ce_add_all caps c0))).
  { apply erel_add_all; auto. intros x Hx. apply N2. unfold stk. rewrite !in_app_iff, <- !in_rev. auto. }
  assert (HV : Rv (VFn en rec ps body) (LVFn caps (match rec with Some _ => true | None => false end) code)).
  { apply RFn with (capn := capn) (known := known); eauto. }
  destruct rec as [x|]; cbn [call_env].
  - assert (E2 : erel (call_env en (Some x) ps body vs) stk known
                      (ce_add (LVFn caps true code) (ce_add_all ls (ce_add_all caps c0)))).
    { unfold call_env. apply erel_add; auto.
      - assert (Q := N1). unfold stk in Q. simpl in Q. inversion Q; auto.
      - apply N2. unfold stk; simpl; auto. }
    destruct (IH n (Nat.lt_succ_diag_r n) body r t stk known code _ _ Sh N1 N2 W EC E2) as [H|(r' & E & H)].
    + left. exact H.
    + right. exists r'. split; auto. cbv zeta. fold c0. rewrite E. rewrite ce_remove_add. rewrite !ce_add_all_eq. simpl.
      rewrite ce_remove_n_app, ce_remove_n_app. destruct c; auto.
  - destruct (IH n (Nat.lt_succ_diag_r n) body r t stk known code _ _ Sh N1 N2 W EC E1) as [H|(r' & E & H)].
    + left. exact H.
    + right. exists r'. split; auto. cbv zeta. fold c0. rewrite E. rewrite !ce_add_all_eq. simpl.
      rewrite ce_remove_n_app, ce_remove_n_app. destruct c; auto.
Qed.

Lemma lam_rel o x y : Rv (eval_op o x y) (lam_op o x y).
Proof. destruct o; constructor. Qed.

Lemma lsim_all n : (forall k, k < n -> forall e, lsim k e) -> forall e, lsim n e.
Proof.
  intros IHn. induction e using expr_ind_rec; intros rec tail stk known code en cv0 HS H1 H2 HW HC HE;
    rewrite eval_unfold; unfold eval_eqn.
  - simpl in HC. injection HC as <-. replace (lrun n (LcVal (LVBool b))) with (lret (LVBool b)) by (destruct n; auto).
    apply rsim_ret; constructor.
  - simpl in HC. injection HC as <-. replace (lrun n (LcVal (LVInt i))) with (lret (LVInt i)) by (destruct n; auto).
    apply rsim_ret; constructor.
  - simpl in HC. injection HC as <-. replace (lrun n (LcVal (LVStr s))) with (lret (LVStr s)) by (destruct n; auto).
    apply rsim_ret; constructor.
  - cbn [lcompile] in HC. unfold r_lookup in HC. simpl in HC. destruct (lookup n0 known) as [l|] eqn:EK.
    + injection HC as <-. destruct (er_known HE _ EK) as (v & -> & Hv).
      replace (lrun n (LcVal l)) with (lret l) by (destruct n; auto). apply rsim_ret; auto.
    + destruct HW as (Hs & _). simpl in Hs. apply mem_In in Hs. apply in_app_iff in Hs as [Hs|Hs].
      2:{ destruct (lookup_In _ _ Hs) as (v & E & _). congruence. }
      destruct (lookup_cnames _ H1 Hs) as (i & E & Hi). rewrite E in HC. injection HC as <-.
      destruct (erel_lookup _ HE Hi) as (l & El & (v & -> & Hv)).
      right. exists (Ok l). split; auto. destruct n; simpl; rewrite El; auto.
  - destruct (wfx_call HW) as [W N]. simpl in HS. apply andb_prop in HS as [HS _]. apply andb_prop in HS as [S1 S2].
    inversion W as [|? ? W1 W2]; subst. cbn [lcompile] in HC. destruct (@lcompile_total e rec false stk known) as [cf E]; auto.
    rewrite E in HC. destruct (@mapS_ok args rec false) with (stk := stk) (known := known) as [cs E']; auto.
    { rewrite Forall_forall; intros; apply lcompile_total. }
    rewrite E' in HC. injection HC as <-. rewrite lrun_call.
    eapply rsim_bind; [eapply IHe with (stk := stk) (known := known); eauto|]. intros v l _ Hv.
    assert (G : rsim Rv (vs <- mapM (eval_o FnFirst n en) args ;; call_o FnFirst n v vs)
                        (let! vs := lmapM (lrun n) cs in lcall n l vs) cv0).
    { eapply rsim_bind; [eapply mapS_lsim with (stk := stk) (known := known); eauto|]. intros vs ls _ Hvs. apply lcall_sim; auto. }
    destruct Hv; try (left; reflexivity). exact G.
  - destruct (wfx_if HW) as [W N]. simpl in HS. apply andb_prop in HS as [HS S3]. apply andb_prop in HS as [S1 S2].
    inversion W as [|? ? W1 W']; inversion W' as [|? ? W2 W'']; inversion W'' as [|? ? W3 _]; subst. cbn [lcompile] in HC.
    destruct (@lcompile_total e1 rec false stk known) as [c1 E1]; auto. rewrite E1 in HC.
    destruct (@lcompile_total e2 rec tail stk known) as [c2 E2]; auto. rewrite E2 in HC.
    destruct (@lcompile_total e3 rec tail stk known) as [c3 E3]; auto. rewrite E3 in HC.
    injection HC as <-. rewrite lrun_if. eapply rsim_bind; [eapply IHe1 with (stk := stk) (known := known); eauto|]. intros v l _ Hv.
    eapply rsim_bind; [apply rsim_bool; eauto|]. intros b b' _ <-. destruct b; [eapply IHe2 with (stk := stk) (known := known)|eapply IHe3 with (stk := stk) (known := known)]; eauto.
  - destruct (wfx_op HW) as [W N]. simpl in HS. apply andb_prop in HS as [S1 S2].
    inversion W as [|? ? W1 W']; inversion W' as [|? ? W2 W'']; subst. cbn [lcompile] in HC.
    destruct (@lcompile_total e1 rec false stk known) as [c1 E1]; auto. rewrite E1 in HC.
    destruct (@lcompile_total e2 rec false stk known) as [c2 E2]; auto. rewrite E2 in HC.
    injection HC as <-. rewrite lrun_op. eapply rsim_bind; [eapply IHe1 with (stk := stk) (known := known); eauto|]. intros v l _ Hv.
    eapply rsim_bind; [apply rsim_int; eauto|]. intros x x' _ <-.
    eapply rsim_bind; [eapply IHe2 with (stk := stk) (known := known); eauto|]. intros v' l' _ Hv'.
    eapply rsim_bind; [apply rsim_int; eauto|]. intros y y' _ <-. apply rsim_ret, lam_rel.
  - assert (W : Forall (wfx (sc stk known)) args) by (destruct HW as (? & ? & ?); apply wfx_args; auto).
    simpl in HS. apply andb_prop in HS as [S1 S2]. apply Nat.eqb_eq in S1. cbn [lcompile] in HC. rewrite <- S1, takeS_mapS in HC.
    assert (HA : forall a, In a args -> wfx (sc stk known) a /\ shape rec false a = true /\ lsim n a).
    { rewrite Forall_forall in *. rewrite forallb_forall in S2. auto. }
    assert (GA : exists cs, code = LcIntr i cs /\ Forall2 (fun a ca => rsim Rv (eval_o FnFirst n en a) (lrun n ca) cv0) args cs).
    { destruct (mapS (lcompile ord) args (can stk known)) as [[cs s']|] eqn:EM; try discriminate. injection HC as <- ->.
      exists cs; split; auto. clear -EM HA H1 H2 HE Hord. revert cs EM. induction args as [|a args IH]; intros cs EM; simpl in EM.
      - injection EM as <-; auto.
      - destruct (HA a (or_introl eq_refl)) as (W1 & W2 & W3).
        destruct (@lcompile_total a rec false stk known) as [ca E]; auto. rewrite E in EM.
        destruct (mapS (lcompile ord) args (can stk known)) as [[cs' s']|] eqn:EM'; try discriminate. injection EM as <- ->.
        constructor; [eapply W3 with (stk := stk) (known := known); eauto|]. apply IH; auto. intros; apply HA; right; auto. }
    destruct GA as (cs & -> & HF). rewrite lrun_intr. clear HC W HA.
    destruct i; simpl in S1; repeat (destruct args as [|? args]; simpl in S1; try lia);
      repeat match goal with H : Forall2 _ (_ :: _) _ |- _ => inversion H; clear H; subst end;
      unfold lintr;
      repeat first
        [ eapply rsim_bind; [eassumption|intros ? ? _ ?]
        | eapply rsim_bind; [apply rsim_str; eassumption|intros ? ? _ <-]
        | eapply rsim_bind; [apply rsim_int; eassumption|intros ? ? _ <-] ];
      try (apply rsim_ret; constructor).
  - destruct (@lam_parts _ stk known ps e _ eq_refl H1 H2 HW eq_refl) as (P1 & P2 & P3).
    cbn [lcompile] in HC. set (captured := ord _ _) in *.
    destruct (@capture_can stk known captured H1 [] P1) as (caps & HCap & HF); auto.
    change (r_other (can stk known)) with (can [] known) in HC. rewrite HCap in HC. rewrite app_nil_r in HC.
    destruct (P3 caps HF) as [_ _ Q1 Q2 Q3]. simpl in Q1, Q2, Q3.
    assert (Q1' := Q1). apply NoDup_app_iff in Q1' as (Q1a & Q1b & Q1c).
    assert (Nps : NoDup (map fst ps)) by (rewrite <- rev_involutive; apply NoDup_rev; auto).
    assert (Dps : forall x, In x (map fst ps) -> ~ In x (rev (notknown known captured))).
    { intros x Hx. apply Q1c. rewrite <- in_rev; auto. }
    rewrite r_add_all_can in HC by auto. simpl in HS.
    destruct (@lcompile_total e None true (rev (map fst ps) ++ rev (notknown known captured)) known) as [cb Eb]; auto.
    rewrite Eb in HC. rewrite r_remove_rev in HC by auto. simpl in HC.
    rewrite cnames_length, rev_length, (Forall2_len HF), Nat.eqb_refl in HC. injection HC as <-.
    rewrite lrun_lam. destruct (captures_sim HE HF) as (ls & E & HL).
    right. exists (Ok (LVFn ls false cb)). split; [unfold lbind; rewrite E; auto|].
    simpl. apply (@RFn en None (map fst ps) e ls cb (notknown known captured) known); eauto.
    apply (er_known HE).
  - destruct (wfx_br HW) as (W & B1 & B2 & B3). simpl in HS. apply andb_prop in HS as [S1 S2].
    cbn [lcompile] in HC. destruct (@lcompile_total e rec false stk known) as [cd E]; auto. rewrite E in HC.
    match type of HC with context [mapS ?f brs ?s] => destruct (mapS f brs s) as [[cs s2]|] eqn:EM end; try discriminate.
    injection HC as <- ->. eapply rsim_eq; [apply lrun_match|].
    eapply rsim_bind; [eapply IHe with (stk := stk) (known := known); eauto|]. intros v l _ Hv. destruct Hv; try (left; reflexivity).
    eapply lfind_sim with (stk := stk) (known := known); eauto.
    + rewrite Forall_forall in H. intros br Hbr. apply H; auto.
    + intros br Hbr. destruct (B3 br Hbr) as (? & ? & ? & ?). auto.
  - assert (W : Forall (wfx (sc stk known)) fs) by (destruct HW as (? & ? & ?); apply wfx_args; auto).
    simpl in HS. cbn [lcompile] in HC. destruct (@mapS_ok fs rec false) with (stk := stk) (known := known) as [cs E']; auto.
    { rewrite Forall_forall; intros; apply lcompile_total. }
    rewrite E' in HC. injection HC as <-. rewrite lrun_construct.
    eapply rsim_bind; [eapply mapS_lsim with (stk := stk) (known := known); eauto|]. intros vs ls _ Hvs. unfold mk_tagged, l_tagged.
    rewrite (Forall2_len Hvs). destruct (length ls <=? max_fields); [|left; auto]. apply rsim_ret; constructor; auto.
  - destruct (wfx_let HW) as (Wv & We & Hn1 & _). simpl in HS. apply andb_prop in HS as [S1 S2].
    cbn [lcompile] in HC. destruct (@lcompile_total e1 rec false stk known) as [cv E1]; auto. rewrite E1 in HC.
    unfold sc in Hn1. rewrite in_app_iff in Hn1.
    rewrite r_add_can in HC by tauto.
    assert (X1 : NoDup (n0 :: stk)) by (constructor; tauto).
    assert (X2 : forall x, In x (n0 :: stk) -> ~ In x (kn known)) by (intros x [<-|Hx]; auto).
    destruct (@lcompile_total e2 rec tail (n0 :: stk) known) as [ce E2]; auto. rewrite E2 in HC.
    rewrite r_remove_can in HC by tauto. injection HC as <-. rewrite lrun_let.
    eapply rsim_bind; [eapply IHe1 with (stk := stk) (known := known); eauto|]. intros v l _ Hv.
    apply rsim_then'; [apply ce_remove_add|]. eapply IHe2 with (stk := n0 :: stk) (known := known); eauto. apply erel_add; auto; tauto.
  - assert (HW' := HW). destruct (wfx_rec HW') as (Wv & We & Hn1 & _). simpl in HS. apply andb_prop in HS as [S1 S2].
    rewrite lcompile_rec in HC. destruct (strip_pis e1) eqn:Est; try discriminate S1.
    destruct (@rec_parts _ stk known n0 t e1 e2 ps e _ eq_refl H1 H2 HW Est eq_refl) as (P1 & P2 & P3).
    cbn zeta in HC. set (captured := ord _ _) in *.
    destruct (@capture_can stk known captured H1 [] P1) as (caps & HCap & HF); auto.
    change (r_other (can stk known)) with (can [] known) in HC. rewrite HCap in HC. rewrite app_nil_r in HC.
    destruct (P3 caps HF) as [_ _ Q1 Q2 Q3]. assert (Q1w := Q1). cbn [app] in Q1, Q2, Q3. inversion Q1 as [|? ? Q0 Q1']; subst.
    assert (Q1s := Q1'). apply NoDup_app_iff in Q1' as (Q1a & Q1b & Q1c).
    assert (Nps : NoDup (map fst ps)) by (rewrite <- rev_involutive; apply NoDup_rev; auto).
    assert (Dps : forall x, In x (map fst ps) -> ~ In x (rev (notknown known captured))).
    { intros x Hx. apply Q1c. rewrite <- in_rev; auto. }
    rewrite r_add_all_can, r_add_can in HC by auto.
    destruct (@lcompile_total e (Some (n0, length ps)) true (n0 :: rev (map fst ps) ++ rev (notknown known captured)) known) as [cb Eb]; auto.
    rewrite Eb in HC. rewrite r_remove_can in HC by auto.
    rewrite r_remove_rev in HC by auto. cbn [can r_names] in HC. rewrite cnames_length, rev_length, (Forall2_len HF), Nat.eqb_refl in HC.
    unfold sc in Hn1. rewrite in_app_iff in Hn1. fold (can stk known) in HC.
    rewrite r_add_can in HC by tauto.
    assert (X1 : NoDup (n0 :: stk)) by (constructor; tauto).
    assert (X2 : forall x, In x (n0 :: stk) -> ~ In x (kn known)) by (intros x [<-|Hx]; auto).
    destruct (@lcompile_total e2 rec tail (n0 :: stk) known) as [ce E2]; auto. rewrite E2 in HC.
    rewrite r_remove_can in HC by tauto. injection HC as <-. rewrite lrun_letrec.
    destruct (captures_sim HE HF) as (ls & E & HL).
    assert (G : rsim Rv (eval_o FnFirst n ((n0, VFn en (Some n0) (map fst ps) e) :: en) e2)
              (fun c0 => l_then (lrun n ce) ce_remove (ce_add (LVFn ls true cb) c0)) cv0).
    { apply rsim_then'; [apply ce_remove_add|]. eapply IHe2 with (stk := n0 :: stk) (known := known); eauto. apply erel_add; auto; try tauto.
      apply (@RFn en (Some n0) (map fst ps) e ls cb (notknown known captured) known); eauto.
      apply (er_known HE). }
    destruct G as [G|(r' & G1 & G2)]; [left; auto|right]. exists r'. split; auto. unfold lbind. rewrite E. auto.
  - simpl in *. eapply IHe with (stk := stk) (known := known); eauto.
  - simpl in *. eapply IHe with (stk := stk) (known := known); eauto.
  - simpl in HC. injection HC as <-. right. exists (Trap m). split; [destruct n; auto|simpl; auto].
Qed.

Lemma lsim_holds n : forall e, lsim n e.
Proof. induction n as [n IH] using lt_wf_ind. apply lsim_all; auto. Qed.

(** ** Whole programs *)
Lemma leval_sim n known en e : wfx (kn known) e -> shape None false e = true ->
  (forall x l, lookup x known = Some l -> Rlook en x l) ->
  eval_o FnFirst n en e = Panic \/ rrel Rv (eval_o FnFirst n en e) (leval_expr ord n known e).
Proof.
  intros HW HS HK. unfold leval_expr.
  destruct (@lcompile_total e None false [] known) as [code E]; auto using NoDup_nil.
  change (mkRes [] [] known) with (can [] known). rewrite E. simpl.
  assert (HE : erel en [] known (mkCenv [] 0)).
  { split; auto. exists [], []. simpl. auto. }
  destruct (@lsim_holds n e None false [] known code en _ HS (NoDup_nil _) (fun x (H : In x []) => match H with end) HW E HE)
    as [H|(r' & Er & H)]; auto.
  right. rewrite Er. simpl. auto.
Qed.

Lemma defs_lsim n ds : forall en known, wfds (kn known) ds ->
  (forall x l, lookup x known = Some l -> Rlook en x l) ->
  eval_defs_o FnFirst n en ds = Panic \/
  rrel (fun en' known' => (forall x l, lookup x known' = Some l -> Rlook en' x l) /\
                          kn known' = rev (def_names ds) ++ kn known)
       (eval_defs_o FnFirst n en ds) (leval_defs ord n known ds).
Proof.
  induction ds as [|d ds IH]; intros en known HW HK; simpl.
  - right; auto.
  - destruct HW as (W & Sh & Hn & HW).
    destruct (leval_sim n known W Sh HK) as [->|H]; [left; auto|].
    destruct (eval_o FnFirst n en (vd_value d)) as [v| m | |] eqn:E1,
             (leval_expr ord n known (vd_value d)) as [l| m'| |] eqn:E2; simpl in H; try tauto; simpl; auto.
    rewrite <- app_assoc. simpl.
    apply (IH ((vd_name d, v) :: en) ((vd_name d, l) :: known)); auto.
    intros x lx. simpl. destruct (Nat.eqb_spec x (vd_name d)) as [->|Hne].
    + intros [= <-]. exists v. simpl. rewrite Nat.eqb_refl. auto.
    + intros Hx. apply Rlook_ext; auto.
Qed.

Lemma mapM_leval n known en exprs : Forall (wfx (kn known)) exprs -> forallb (shape None false) exprs = true ->
  (forall x l, lookup x known = Some l -> Rlook en x l) ->
  mapM (eval_o FnFirst n en) exprs = Panic \/
  rrel (Forall2 Rv) (mapM (eval_o FnFirst n en) exprs) (mapM (leval_expr ord n known) exprs).
Proof.
  intros HW HS HK. induction exprs as [|e exprs IH]; [right; simpl; auto|].
  inversion HW; subst. simpl in HS. apply andb_prop in HS as [S1 S2]. rewrite !mapM_cons.
  destruct (leval_sim n known H1 S1 HK) as [->|H]; [left; auto|].
  destruct (eval_o FnFirst n en e) as [v| m | |] eqn:E1,
           (leval_expr ord n known e) as [l| m'| |] eqn:E2; simpl in H; try tauto; simpl; auto.
  destruct (IH H2 S2) as [->|H']; [left; auto|].
  destruct (mapM (eval_o FnFirst n en) exprs), (mapM (leval_expr ord n known) exprs); simpl in H'; try tauto; simpl; auto.
Qed.

Lemma Rv_obs v : forall l, Rv v l -> obs_lval l = obs_value v.
Proof.
  revert v. fix IH 1. intros v l H. destruct v; inversion H; subst; simpl; auto.
  f_equal. match goal with HF : Forall2 _ _ ?l0 |- _ => revert HF; generalize l0 end. clear H.
  induction fs as [|v fs IHf]; intros l0 HF; inversion HF; subst; simpl; auto. f_equal; auto.
Qed.
Lemma Rv_obs_all vs ls : Forall2 Rv vs ls -> map obs_lval ls = map obs_value vs.
Proof. induction 1; simpl; f_equal; auto using Rv_obs. Qed.

End Fix.

Definition lambda_obs (ord : expr -> list name -> list name) (n : nat) (p : program) (exprs : list expr) : res (list obs) :=
  vs <- lambda_run ord n p exprs ;; Ok (map obs_lval vs).

Theorem lambda_correct ord p exprs n : (forall e l, Permutation (ord e l) l) -> wf_program p exprs = true ->
  treewalk n p exprs <> Panic ->
  lambda_obs ord n p exprs = (vs <- treewalk n p exprs ;; Ok (map obs_value vs)).
Proof.
  intros Hord Hwf. unfold lambda_obs, treewalk, run_o, lambda_run.
  destruct (wf_exprs _ _ Hwf) as (HD & HX & _ & HS).
  destruct (@defs_lsim ord Hord n (p_defs p) [] [] HD) as [-> | R]; [intros x l; discriminate|simpl; congruence|].
  intros HP.
  destruct (eval_defs_o FnFirst n [] (p_defs p)) as [en| m | |],
           (leval_defs ord n [] (p_defs p)) as [known| m'| |]; simpl in R; try tauto; simpl in HP |- *; try congruence.
  destruct R as [RK RN].
  destruct (@mapM_leval ord Hord n known en exprs) as [E |R]; auto.
  - rewrite RN; auto.
  - contradiction.
  - destruct (mapM (eval_o FnFirst n en) exprs) as [vs| m | |], (mapM (leval_expr ord n known) exprs) as [ls| m'| |];
      simpl in R; try tauto; simpl; try congruence. f_equal. eapply Rv_obs_all; eauto.
Qed.
