(** Correctness of the collector and the allocator. *)
From Verif Require Import Ir Heap HeapSpec.
Set Implicit Arguments.

(** *** Memory updates *)
Lemma upd_eq m a c : upd m a c a = c.
Proof. unfold upd. rewrite Nat.eqb_refl. reflexivity. Qed.
Lemma upd_ne m a c x : x <> a -> upd m a c x = m x.
Proof. unfold upd. intros H. apply Nat.eqb_neq in H. rewrite H. reflexivity. Qed.

Lemma is_ptr_0 i : is_ptr 0 i = false.
Proof. reflexivity. Qed.

(** *** Tilings *)
Lemma tiles_le m a c l : tiles m a c l -> a <= c.
Proof. induction 1; unfold hdr_size in *; lia. Qed.

Lemma tiles_in m a c l : tiles m a c l -> forall x, In x l ->
  a <= x /\ x + size_at m x <= c /\ hdr_size <= size_at m x /\ exists b, m x = CHdr (size_at m x) b.
Proof.
  induction 1 as [|a c s b l Ha Hs HT IH]; intros x Hx; [destruct Hx|].
  destruct Hx as [<-|Hx].
  - unfold size_at. rewrite Ha. pose proof (tiles_le HT). repeat split; eauto; lia.
  - destruct (IH x Hx) as (H1 & H2 & H3 & H4). unfold hdr_size in *. repeat split; auto; lia.
Qed.

(** Two objects of a tiling are disjoint. *)
Lemma tiles_disjoint m a c l : tiles m a c l -> forall x y, In x l -> In y l ->
  x = y \/ x + size_at m x <= y \/ y + size_at m y <= x.
Proof.
  induction 1 as [|a c s b l Ha Hs HT IH]; intros x y Hx Hy; [destruct Hx|].
  destruct Hx as [<-|Hx], Hy as [<-|Hy]; auto.
  - pose proof (tiles_in HT _ Hy). unfold size_at at 1. rewrite Ha. right; left; lia.
  - pose proof (tiles_in HT _ Hx). unfold size_at at 2. rewrite Ha. right; right; lia.
Qed.

Lemma tiles_nodup m a c l : tiles m a c l -> NoDup l.
Proof.
  induction 1 as [|a c s b l Ha Hs HT IH]; constructor; auto.
  intros Hin. pose proof (tiles_in HT _ Hin). unfold hdr_size in *. lia.
Qed.

(** [tiles] only looks at headers. *)
Lemma tiles_ext m m' a c l : tiles m a c l ->
  (forall x, In x l -> forall s b, m x = CHdr s b -> exists b', m' x = CHdr s b') -> tiles m' a c l.
Proof.
  induction 1 as [|a c s b l Ha Hs HT IH]; intros H; [constructor|].
  destruct (H a (or_introl eq_refl) s b Ha) as [b' Hb].
  econstructor; eauto. apply IH. intros x Hx. apply H. right; auto.
Qed.

(** *** Marking: only mark bits change *)
Definition marks_only (m m' : memory) : Prop :=
  forall x, m' x = m x \/ exists s b b', m x = CHdr s b /\ m' x = CHdr s b'.

Lemma mo_refl m : marks_only m m.
Proof. intros x; auto. Qed.
Lemma mo_trans m1 m2 m3 : marks_only m1 m2 -> marks_only m2 m3 -> marks_only m1 m3.
Proof.
  intros H1 H2 x. destruct (H1 x) as [E1|(s & b & b' & E1 & E1')], (H2 x) as [E2|(s2 & b2 & b2' & E2 & E2')].
  - left; congruence.
  - right. exists s2, b2, b2'. split; congruence.
  - right. exists s, b, b'. split; congruence.
  - right. exists s, b, b2'. split; auto. rewrite E1' in E2. injection E2 as -> ->. auto.
Qed.
Lemma mo_size m m' a : marks_only m m' -> size_at m' a = size_at m a.
Proof. intros H. unfold size_at. destruct (H a) as [->|(s & b & b' & -> & ->)]; reflexivity. Qed.
Lemma mo_word m m' a : marks_only m m' -> word_at m' a = word_at m a.
Proof. intros H. unfold word_at. destruct (H a) as [->|(s & b & b' & -> & ->)]; reflexivity. Qed.
Lemma mo_nfields m m' a : marks_only m m' -> nfields m' a = nfields m a.
Proof. intros H. unfold nfields. rewrite (mo_size _ H). reflexivity. Qed.
Lemma mo_ptrs m m' a : marks_only m m' -> ptrs_at m' a = ptrs_at m a.
Proof. intros H. apply mo_word; auto. Qed.
Lemma mo_cword m m' a n : marks_only m m' -> (m' a = CWord n <-> m a = CWord n).
Proof. intros H. destruct (H a) as [->|(s & b & b' & -> & ->)]; split; congruence. Qed.
Lemma mo_points m m' a c : marks_only m m' -> (points_to m' a c <-> points_to m a c).
Proof.
  intros H. unfold points_to. rewrite (mo_nfields _ H), (mo_ptrs _ H).
  split; intros (i & H1 & H2 & H3); exists i; rewrite (mo_cword _ _ H) in *; auto.
Qed.
Lemma mo_tiles m m' a c l : marks_only m m' -> tiles m a c l -> tiles m' a c l.
Proof.
  intros H HT. eapply tiles_ext; eauto. intros x _ s b Hx.
  destruct (H x) as [->|(s' & b1 & b2 & E1 & E2)]; [eauto|]. rewrite E1 in Hx. injection Hx as -> ->. eauto.
Qed.

Lemma set_mark_mo m a b : marks_only m (set_mark m a b).
Proof.
  intros x. unfold set_mark. destruct (m a) as [s b0| |] eqn:E; auto.
  destruct (Nat.eq_dec x a) as [->|Hne]; [|left; apply upd_ne; auto].
  right. exists s, b0, b. rewrite upd_eq. auto.
Qed.
Lemma set_mark_ne m a b x : x <> a -> set_mark m a b x = m x.
Proof. intros H. unfold set_mark. destruct (m a); auto. apply upd_ne; auto. Qed.
Lemma set_mark_eq m a b s b0 : m a = CHdr s b0 -> set_mark m a b a = CHdr s b.
Proof. intros H. unfold set_mark. rewrite H. apply upd_eq. Qed.

(** Reachability from a set of marked objects: [a] is marked or reachable from a marked object of [l]. *)
Inductive mreach (m : memory) (M : addr -> Prop) : addr -> Prop :=
| mr_base a : M a -> mreach m M a
| mr_step a c : mreach m M a -> points_to m a c -> mreach m M c.

Lemma mreach_mono m (M M' : addr -> Prop) a : (forall x, M x -> mreach m M' x) -> mreach m M a -> mreach m M' a.
Proof. intros H. induction 1; auto. eapply mr_step; eauto. Qed.
Lemma mreach_mo m m' M a : marks_only m m' -> mreach m' M a -> mreach m M a.
Proof. intros H. induction 1; [apply mr_base; auto|]. eapply mr_step; eauto. apply (mo_points _ _ H); auto. Qed.

Definition marked (m : memory) (a : addr) : Prop := mark_at m a = true.

(** Setting the marks of a list of objects. *)
Lemma fold_mark_spec (l : list addr) : forall m,
  (forall x, In x l -> exists s b, m x = CHdr s b) ->
  let m' := fold_left (fun m r => set_mark m r true) l m in
  marks_only m m' /\ (forall x, ~ In x l -> m' x = m x) /\ (forall x, In x l -> marked m' x) /\
  (forall x, marked m' x <-> marked m x \/ In x l).
Proof.
  induction l as [|r l IH]; intros m H; cbn [fold_left].
  - split; [apply mo_refl|]. split; auto. split; [intros ? []|]. intros x; cbn; tauto.
  - destruct (H r (or_introl eq_refl)) as (s & b & Hr).
    destruct (IH (set_mark m r true)) as (H1 & H2 & H3 & H4).
    { intros x Hx. destruct (Nat.eq_dec x r) as [->|Hne].
      - erewrite set_mark_eq by eauto. eauto.
      - rewrite set_mark_ne by auto. apply H. right; auto. }
    split; [eapply mo_trans; [apply set_mark_mo|exact H1]|].
    assert (Hm : forall x, marked (set_mark m r true) x <-> marked m x \/ r = x).
    { intros x. unfold marked, mark_at. destruct (Nat.eq_dec x r) as [->|Hne].
      - erewrite set_mark_eq by eauto. tauto.
      - rewrite set_mark_ne by auto. split; auto. intros [|]; congruence. }
    split; [|split].
    + intros x Hx. rewrite H2 by (intros Hi; apply Hx; right; auto). apply set_mark_ne. intros ->. apply Hx; left; auto.
    + intros x Hx. apply H4. destruct Hx as [->|Hx]; [left; apply Hm; auto|auto].
    + intros x. rewrite H4, Hm. cbn [In]. tauto.
Qed.

Definition flagged (ptrs : N) (fs : list (nat * N)) : list addr :=
  flat_map (fun f => if is_ptr ptrs (fst f) then [N.to_nat (snd f)] else []) fs.
Lemma mark_children_fold ptrs fs : forall m,
  mark_children m ptrs fs = fold_left (fun m r => set_mark m r true) (flagged ptrs fs) m.
Proof.
  induction fs as [|f fs IH]; intros m; [reflexivity|]. unfold mark_children, flagged in *.
  cbn [fold_left flat_map]. destruct (is_ptr ptrs (fst f)); cbn [app fold_left]; apply IH.
Qed.

(** Ascending, disjoint objects between [lo] and [hi]. *)
Fixpoint asc (m : memory) (lo hi : nat) (l : list addr) : Prop :=
  match l with
  | [] => lo <= hi
  | a :: r => lo <= a /\ hdr_size <= size_at m a /\ asc m (a + size_at m a) hi r
  end.
Lemma asc_weaken m lo lo' hi l : lo' <= lo -> asc m lo hi l -> asc m lo' hi l.
Proof. destruct l; cbn; intuition lia. Qed.

Lemma mark_pass_spec m0 objs fuel : forall m cur len l,
  tiles m cur len l -> length l <= fuel -> marks_only m0 m ->
  (forall a, In a l -> forall i, i < nfields m0 a -> is_ptr (ptrs_at m0 a) i = true ->
      exists c, m0 (a + 3 + i) = CWord (N.of_nat c) /\ In c objs /\ a < c) ->
  (forall c, In c objs -> cur <= c -> In c l) ->
  exists m' ret, mark_pass fuel m cur len = (m', ret) /\
    marks_only m0 m' /\ (forall c, In c l -> ~ marked m' c) /\
    (forall x, ~ In x l -> m' x = m x) /\
    asc m0 cur len ret /\
    (forall a, In a ret -> In a l) /\
    (forall a, In a ret <-> mreach m0 (fun c => In c l /\ marked m c) a).
Proof.
  induction fuel as [|fuel IH]; intros m cur len l HT Hl Hmo Hptr Hobjs.
  - destruct l; [|cbn in Hl; lia]. inversion HT; subst. cbn [mark_pass]. exists m, []. split; auto. split; auto.
    split; [intros c []|]. split; auto. split; [cbn; lia|]. split; [intros ? []|].
    intros a. split; [intros []|]. intros Hr. exfalso. induction Hr as [a [[] _]|]; auto.
  - cbn [mark_pass]. inversion HT as [c E1 E2 E3|a c s b l' Ha Hs HT' E1 E2 E3].
    + subst. rewrite Nat.ltb_irrefl. exists m, []. split; auto. split; auto.
      split; [intros c []|]. split; auto. split; [cbn; lia|]. split; [intros ? []|].
      intros a. split; [intros []|]. intros Hr. exfalso. induction Hr as [a [[] _]|]; auto.
    + subst a c l. pose proof (tiles_le HT') as Hle. unfold hdr_size in Hs.
      destruct (Nat.ltb_spec cur len); [|lia].
      assert (Hsz : size_at m cur = s) by (unfold size_at; rewrite Ha; auto).
      assert (Hsz0 : size_at m0 cur = s) by (rewrite <- Hsz; symmetry; apply mo_size; auto).
      assert (Hncur : ~ In cur l'). { intros Hi. pose proof (tiles_in HT' _ Hi). lia. }
      assert (Hfut : forall c, In c objs -> cur < c -> In c l').
      { intros c Hc Hlt. destruct (Hobjs c Hc ltac:(lia)) as [->|]; auto. lia. }
      assert (Hnext : forall c, In c objs -> cur + s <= c -> In c l').
      { intros c Hc Hlt. apply Hfut; auto; lia. }
      destruct (mark_at m cur) eqn:Emk.
      * set (m1 := set_mark m cur false).
        assert (Hm1 : marks_only m m1) by apply set_mark_mo.
        assert (Hmo1 : marks_only m0 m1) by (eapply mo_trans; eauto).
        rewrite (mo_size _ Hm1), Hsz.
        set (fs := map (fun i => (i, word_at m1 (cur + 3 + i))) (List.seq 0 (nfields m1 cur))).
        set (kids := flagged (ptrs_at m1 cur) fs).
        assert (Hkids : forall c, In c kids <-> points_to m0 cur c).
        { intros c. unfold kids, flagged, fs. rewrite in_flat_map. split.
          - intros ((i & w) & Hi & Hc). apply in_map_iff in Hi as (j & Ej & Hj). injection Ej as -> <-.
            apply in_seq in Hj. cbn [fst snd] in Hc. destruct (is_ptr _ i) eqn:Ep; [|destruct Hc].
            destruct Hc as [<-|[]]. rewrite (mo_nfields _ Hmo1) in Hj. rewrite (mo_ptrs _ Hmo1) in Ep.
            destruct (Hptr cur (or_introl eq_refl) i ltac:(lia) Ep) as (c & Hc & _ & _).
            exists i. split; [lia|]. split; auto. rewrite (mo_word _ Hmo1). unfold word_at. rewrite Hc.
            rewrite Nat2N.id. auto.
          - intros (i & Hi & Ep & Hc). exists (i, N.of_nat c). split.
            + apply in_map_iff. exists i. split; [|apply in_seq; rewrite (mo_nfields _ Hmo1); lia].
              f_equal. rewrite (mo_word _ Hmo1). unfold word_at. rewrite Hc. auto.
            + cbn [fst snd]. rewrite (mo_ptrs _ Hmo1), Ep. left. apply Nat2N.id. }
        assert (Hkid_in : forall c, In c kids -> In c l').
        { intros c Hc. apply Hkids in Hc as (i & Hi & Ep & Hc).
          destruct (Hptr cur (or_introl eq_refl) i Hi Ep) as (c' & Hc' & Hin & Hlt).
          rewrite Hc in Hc'. injection Hc' as Hc'. apply Nat2N.inj in Hc'. subst c'. auto. }
        set (m2 := if N.eqb (ptrs_at m1 cur) 0 then m1 else mark_children m1 (ptrs_at m1 cur) fs).
        assert (Em2 : m2 = fold_left (fun m r => set_mark m r true) kids m1).
        { unfold m2. destruct (N.eqb_spec (ptrs_at m1 cur) 0) as [E0|]; [|apply mark_children_fold].
          assert (Hnil : kids = []).
          { unfold kids. rewrite E0. unfold flagged. clear. induction fs as [|f fs IHf]; auto. }
          rewrite Hnil. reflexivity. }
        assert (HT1 : tiles m1 (cur + s) len l') by (exact (mo_tiles Hm1 HT')).
        destruct (@fold_mark_spec kids m1) as (K1 & K2 & K3 & K4).
        { intros x Hx. destruct (tiles_in HT1 _ (Hkid_in x Hx)) as (_ & _ & _ & bb & Hb). eauto. }
        rewrite <- Em2 in K1, K2, K3, K4.
        assert (Hmk1 : forall c, marked m1 c <-> marked m c /\ c <> cur).
        { intros c. unfold marked, mark_at, m1. destruct (Nat.eq_dec c cur) as [->|Hne].
          - erewrite set_mark_eq by eauto. split; [discriminate|tauto].
          - rewrite set_mark_ne by auto. tauto. }
        destruct (IH m2 (cur + s) len l') as (m' & ret & E & R1 & R2 & R3 & R4 & R5 & R6).
        { exact (mo_tiles K1 HT1). } { cbn in Hl; lia. } { exact (mo_trans Hmo1 K1). }
        { intros a Hin. apply Hptr. right; auto. } { auto. }
        rewrite E. exists m', (cur :: ret). split; auto. split; auto. split.
        { intros c [<-|Hc]; [|auto]. unfold marked, mark_at. rewrite R3 by auto.
          assert (Hnk : ~ In cur kids) by (intros Hk; auto).
          rewrite K2 by auto. unfold m1. erewrite set_mark_eq by eauto. discriminate. }
        split.
        { intros x Hx. rewrite R3 by (intros Hi; apply Hx; right; auto).
          rewrite K2 by (intros Hi; apply Hx; right; auto). apply set_mark_ne. intros ->. apply Hx; left; auto. }
        split; [cbn [asc]; unfold hdr_size; rewrite Hsz0; repeat split; auto; lia|].
        split. { intros a [<-|Hin]; [left; auto|right; auto]. }
        assert (Hcur : mreach m0 (fun c => In c (cur :: l') /\ marked m c) cur).
        { apply mr_base. split; [left; auto|exact Emk]. }
        intros a. cbn [In]. rewrite R6. split.
        -- intros [<-|Hr]; [exact Hcur|]. eapply mreach_mono; [|exact Hr].
           intros x [Hin Hx]. apply K4 in Hx as [Hx|Hx].
           ++ apply mr_base. apply Hmk1 in Hx. split; [right|]; tauto.
           ++ eapply mr_step; [exact Hcur|]. apply Hkids; auto.
        -- intros Hr. induction Hr as [a [Hin Hma]|a c Hr IHr Hp].
           ++ destruct (Nat.eq_dec cur a) as [->|Hne]; [left; auto|right].
              apply mr_base. split; [destruct Hin; [congruence|auto]|]. apply K4. left. apply Hmk1. split; auto.
           ++ right. destruct IHr as [<-|IHr].
              ** apply mr_base. assert (In c kids) by (apply Hkids; auto). split; auto.
              ** eapply mr_step; eauto.
      * rewrite Hsz.
        destruct (IH m (cur + s) len l') as (m' & ret & E & R1 & R2 & R3 & R4 & R5 & R6); auto.
        { cbn in Hl; lia. } { intros a Hin. apply Hptr. right; auto. }
        exists m', ret. split; auto. split; auto. split.
        { intros c [<-|Hc]; auto. unfold marked, mark_at. rewrite R3 by auto. unfold mark_at in Emk. congruence. }
        split; [intros x Hx; apply R3; intros Hi; apply Hx; right; auto|].
        split; [eapply asc_weaken; [|exact R4]; lia|]. split; [intros; right; auto|].
        intros a. rewrite R6. split; apply mreach_mono; intros x [Hin Hx]; apply mr_base.
        -- split; [right; auto|auto].
        -- destruct Hin as [<-|Hin]; [unfold marked in Hx; congruence|auto].
Qed.

(** The whole marking phase: memory is as before and exactly the reachable objects are retained. *)
Lemma mark_phase h objs roots : wf_heap h objs -> (forall r, In r roots -> In r objs) ->
  exists m1 ret, mark_pass (hcap h) (mark_roots (hmem h) roots) (hbump h) (hcap h) = (m1, ret) /\
    (forall x, m1 x = hmem h x) /\ asc (hmem h) (hbump h) (hcap h) ret /\
    (forall a, In a ret <-> reach (hmem h) roots a) /\ (forall a, In a ret -> In a objs).
Proof.
  intros [HT HO] Hr. unfold mark_roots.
  destruct (@fold_mark_spec roots (hmem h)) as (K1 & K2 & K3 & K4).
  { intros x Hx. destruct (tiles_in HT _ (Hr x Hx)) as (_ & _ & _ & b & Hb). eauto. }
  set (m := fold_left (fun m r => set_mark m r true) roots (hmem h)) in *.
  assert (Hlen : length objs <= hcap h).
  { clear -HT. assert (H : forall b c l, tiles (hmem h) b c l -> b + length l <= c).
    { induction 1; cbn; unfold hdr_size in *; lia. } specialize (H _ _ _ HT). lia. }
  destruct (@mark_pass_spec (hmem h) objs (hcap h) m (hbump h) (hcap h) objs) as (m1 & ret & E & R1 & R2 & R3 & R4 & R5 & R6); auto.
  { eapply mo_tiles; eauto. }
  { intros a Ha. apply (HO a Ha). }
  exists m1, ret. split; auto. split.
  { intros x. destruct (in_dec Nat.eq_dec x objs) as [Hx|Hx].
    - destruct (HO x Hx) as [Hum _]. specialize (R2 x Hx). unfold marked, mark_at in *.
      destruct (R1 x) as [|(s & b & b' & E1 & E2)]; auto. rewrite E1, E2 in *. destruct b, b'; congruence.
    - rewrite R3 by auto. apply K2. intros Hi. auto. }
  split; auto. split; auto.
  intros a. rewrite R6. split; intros H.
  - induction H as [a [Hin Hm]|a c H IH Hp]; [|eapply reach_step; eauto].
    apply reach_root. apply K4 in Hm as [Hm|Hm]; auto. destruct (HO a Hin) as [Hum _].
    unfold marked in Hm. congruence.
  - induction H as [a Hin|a c H IH Hp]; [|eapply mr_step; eauto].
    apply mr_base. split; auto.
Qed.

(** *** Compaction *)
Lemma list_set_spec {A} (l : list A) i v : i < length l ->
  exists l', list_set l i v = Some l' /\ length l' = length l /\ nth_error l' i = Some v /\
             (forall j, j <> i -> nth_error l' j = nth_error l j).
Proof.
  revert i. induction l as [|x l IH]; intros i Hi; cbn in Hi; [lia|]. destruct i as [|i]; cbn [list_set].
  - exists (v :: l). repeat split; auto. intros [|j] Hj; [congruence|reflexivity].
  - destruct (IH i ltac:(lia)) as (l' & E & H1 & H2 & H3). rewrite E. exists (x :: l'). cbn. repeat split; auto.
    intros [|j] Hj; [reflexivity|]. apply H3. lia.
Qed.

(** Where [move_dst] sends an address. *)
Definition dst_of (dst : list addr) (p : addr) : addr := nth (p / 3) dst 0.
Lemma dst_of_nth dst p d : nth_error dst (p / 3) = Some d -> dst_of dst p = d.
Proof. intros H. unfold dst_of. apply nth_error_nth; auto. Qed.
Lemma nth_dst_of dst p : p / 3 < length dst -> nth_error dst (p / 3) = Some (dst_of dst p).
Proof. intros H. unfold dst_of. apply nth_error_nth'; auto. Qed.

Lemma fix_fields_spec m dst a ptrs n :
  (forall k, k < n -> is_ptr ptrs k = true ->
     exists c, m (a + 3 + k) = CWord (N.of_nat c) /\ c / 3 < length dst) ->
  exists m', fix_fields m dst a ptrs n = Some m' /\
    (forall x, x < a + 3 \/ a + 3 + n <= x -> m' x = m x) /\
    (forall k, k < n ->
       (is_ptr ptrs k = false -> m' (a + 3 + k) = m (a + 3 + k)) /\
       (is_ptr ptrs k = true -> forall c, m (a + 3 + k) = CWord (N.of_nat c) ->
                                m' (a + 3 + k) = CWord (N.of_nat (dst_of dst c)))).
Proof.
  induction n as [|n IH]; intros H; cbn [fix_fields].
  - exists m. split; auto. split; auto. intros k Hk; lia.
  - destruct IH as (m' & E & H1 & H2); [intros k Hk; apply H; lia|].
    change (fix_fields m dst a ptrs n) with ((fix go n := match n with
      | O => Some m
      | S k => match go k with
               | None => None
               | Some m' => if is_ptr ptrs k then
                    match nth_error dst (N.to_nat (word_at m' (a + 3 + k)) / 3) with
                    | Some d => Some (upd m' (a + 3 + k) (CWord (N.of_nat d)))
                    | None => None end
                  else Some m' end end) n) in E.
    unfold fix_fields. rewrite E.
    destruct (is_ptr ptrs n) eqn:Ep.
    + destruct (H n ltac:(lia) Ep) as (c & Hc & Hlt).
      assert (Hc' : m' (a + 3 + n) = CWord (N.of_nat c)) by (rewrite H1 by lia; auto).
      unfold word_at. rewrite Hc', Nat2N.id, (nth_dst_of _ _ Hlt).
      eexists. split; [reflexivity|]. split.
      * intros x Hx. rewrite upd_ne by lia. apply H1. lia.
      * intros k Hk. destruct (Nat.eq_dec k n) as [->|Hne].
        -- rewrite upd_eq. split; [congruence|]. intros _ c' Hc2. rewrite Hc in Hc2. injection Hc2 as Hc2.
           apply Nat2N.inj in Hc2. subst; auto.
        -- rewrite upd_ne by lia. apply H2. lia.
    + exists m'. split; auto. split; [intros x Hx; apply H1; lia|].
      intros k Hk. destruct (Nat.eq_dec k n) as [->|Hne]; [|apply H2; lia].
      split; [|congruence]. intros _. apply H1. lia.
Qed.

(** Descending, disjoint objects below [lim]. *)
Fixpoint desc (m : memory) (lim : nat) (l : list addr) : Prop :=
  match l with
  | [] => True
  | a :: r => a + size_at m a <= lim /\ hdr_size <= size_at m a /\ desc m a r
  end.
Lemma desc_snoc m lim l a : desc m lim (l ++ [a]) <->
  desc m lim l /\ hdr_size <= size_at m a /\ (forall x, In x l -> a + size_at m a <= x) /\ (l = [] -> a + size_at m a <= lim).
Proof.
  revert lim. induction l as [|y l IH]; intros lim; cbn [app desc].
  - intuition. destruct H1.
  - rewrite IH. split.
    + intros (H1 & H2 & H3 & H4 & H5 & H6). repeat split; auto; [|discriminate].
      intros x [<-|Hx]; auto. destruct l as [|z l]; [auto|].
      specialize (H5 z (or_introl eq_refl)). cbn [desc] in H3. lia.
    + intros ((H1 & H2 & H3) & H4 & H5 & H6). repeat split; auto. intros x Hx. apply H5. right; auto.
      intros ->. apply H5. left; auto.
Qed.
Lemma asc_ge m lo hi l : asc m lo hi l -> forall x, In x l -> lo <= x /\ x + size_at m x <= hi.
Proof.
  revert lo. induction l as [|a l IH]; intros lo H x Hx; [destruct Hx|]. cbn [asc] in H. destruct H as (H1 & H2 & H3).
  assert (Hle : forall lo l, asc m lo hi l -> lo <= hi).
  { clear. intros lo l. revert lo. induction l as [|a l IH]; intros lo; cbn; [auto|]. intros (H1 & H2 & H3). apply IH in H3. lia. }
  destruct Hx as [<-|Hx]; [apply Hle in H3; lia|]. apply (IH _ H3) in Hx. lia.
Qed.
Lemma asc_desc m lo hi l : asc m lo hi l -> desc m hi (rev l).
Proof.
  revert lo. induction l as [|a l IH]; intros lo H; cbn [rev]; [exact I|].
  pose proof (asc_ge _ _ _ _ H a (or_introl eq_refl)) as Ha. cbn [asc] in H. destruct H as (H1 & H2 & H3).
  apply desc_snoc. split; [eauto|]. split; auto. split; [|lia].
  intros x Hx. apply in_rev in Hx. apply (asc_ge _ _ _ _ H3) in Hx. lia.
Qed.

(** Object [p] of [m1] has been moved to where [dst] says, with its pointers redirected. *)
Definition moved (m1 m : memory) (dst : list addr) (p : addr) : Prop :=
  let q := dst_of dst p in
  m q = m1 p /\ m (q + 1) = m1 (p + 1) /\ m (q + 2) = m1 (p + 2) /\
  forall i, i < nfields m1 p ->
    (is_ptr (ptrs_at m1 p) i = false -> m (q + 3 + i) = m1 (p + 3 + i)) /\
    (is_ptr (ptrs_at m1 p) i = true -> forall c, m1 (p + 3 + i) = CWord (N.of_nat c) ->
       m (q + 3 + i) = CWord (N.of_nat (dst_of dst c))).

Lemma div3_ne a b : a + 3 <= b -> a / 3 <> b / 3.
Proof.
  intros H E. pose proof (Nat.div_mod a 3). pose proof (Nat.div_mod b 3).
  pose proof (Nat.mod_upper_bound a 3). pose proof (Nat.mod_upper_bound b 3). lia.
Qed.

Lemma compact_spec m1 cap : forall r m dst bump lim P,
  desc m1 lim r -> lim <= bump -> bump <= cap ->
  (forall x, x < lim -> m x = m1 x) ->
  tiles m bump cap (map (dst_of dst) P) ->
  (forall p, In p P -> lim <= p) ->
  (forall p, In p P -> moved m1 m dst p) ->
  (forall p, In p P -> hdr_size <= size_at m1 p /\
     forall i, i < nfields m1 p -> is_ptr (ptrs_at m1 p) i = true ->
       exists c, m1 (p + 3 + i) = CWord (N.of_nat c) /\ In c P) ->
  (forall a, In a r -> (exists s b, m1 a = CHdr s b) /\
     forall i, i < nfields m1 a -> is_ptr (ptrs_at m1 a) i = true ->
       exists c, m1 (a + 3 + i) = CWord (N.of_nat c) /\ (In c P \/ In c r) /\ a < c) ->
  (forall a, In a P \/ In a r -> a / 3 < length dst) ->
  exists m' dst' bump', compact m dst bump r = Some (m', dst', bump') /\
    bump' + list_sum (map (size_at m1) r) = bump /\
    tiles m' bump' cap (map (dst_of dst') (rev r ++ P)) /\
    (forall p, In p (rev r ++ P) -> moved m1 m' dst' p) /\
    (forall a, a / 3 < length dst -> a / 3 < length dst') /\
    length dst' = length dst.
Proof.
  induction r as [|a r IH]; intros m dst bump lim P Hd Hlim Hcap Hm HT HP Hmv HPok Hr Hlen.
  - cbn [compact rev app map list_sum]. exists m, dst, bump. split; auto.
  - cbn [desc] in Hd. destruct Hd as (Hda & Hsa & Hdr). unfold hdr_size in Hsa.
    destruct (Hr a (or_introl eq_refl)) as ((s & b & Ha) & Hpa).
    cbn [compact].
    assert (Esz : size_at m1 a = s) by (unfold size_at; rewrite Ha; auto).
    assert (Ema : m a = CHdr s b) by (rewrite Hm by lia; auto).
    assert (Eszm : size_at m a = s) by (unfold size_at; rewrite Ema; auto).
    rewrite Eszm. rewrite Esz in *.
    set (place := bump - s). assert (Hplace : place + s = bump) by (unfold place; lia).
    set (mc := copy_within m a s place).
    assert (Hmc_in : forall k, k < s -> mc (place + k) = m1 (a + k)).
    { intros k Hk. unfold mc, copy_within.
      destruct (Nat.leb_spec place (place + k)), (Nat.ltb_spec (place + k) (place + s)); try lia. cbn [andb].
      rewrite Hm by lia. f_equal. lia. }
    assert (Hmc_out : forall x, x < place \/ bump <= x -> mc x = m x).
    { intros x Hx. unfold mc, copy_within.
      destruct (Nat.leb_spec place x), (Nat.ltb_spec x (place + s)); try lia; reflexivity. }
    destruct (@list_set_spec _ dst (a / 3) place) as (dst1 & Eset & Hl1 & Hn1 & Hn2).
    { apply Hlen. right; left; auto. }
    rewrite Eset.
    assert (Hda1 : dst_of dst1 a = place) by (apply dst_of_nth; auto).
    assert (HdP : forall c, In c P -> dst_of dst1 c = dst_of dst c).
    { intros c Hc. pose proof (HP c Hc). unfold dst_of. 
      assert (Hne : c / 3 <> a / 3) by (apply not_eq_sym, div3_ne; lia).
      specialize (Hn2 _ Hne). apply nth_error_nth with (d := 0).
      rewrite Hn2. apply nth_dst_of. apply Hlen; auto. }
    assert (Hptrs : ptrs_at mc place = ptrs_at m1 a).
    { unfold ptrs_at, word_at. rewrite Hmc_in by lia. auto. }
    assert (Hnf : nfields mc place = s - 3).
    { unfold nfields, size_at. replace place with (place + 0) by lia. rewrite Hmc_in by lia.
      rewrite Nat.add_0_r, Ha. reflexivity. }
    assert (Hnf1 : nfields m1 a = s - 3) by (unfold nfields; rewrite Esz; auto).
    assert (Hkid : forall k, k < s - 3 -> is_ptr (ptrs_at m1 a) k = true ->
              exists c, m1 (a + 3 + k) = CWord (N.of_nat c) /\ In c P).
    { intros k Hk Hp. destruct (Hpa k ltac:(lia) Hp) as (c & Hc & Hin & Hlt).
      exists c. split; auto. destruct Hin as [|[->|Hin]]; auto; [lia|].
      exfalso. clear -Hdr Hin Hlt. revert a Hdr Hin Hlt. induction r as [|y r IHr]; intros a Hd Hin Hlt; [destruct Hin|].
      cbn [desc] in Hd. destruct Hd as (H1 & H2 & H3). unfold hdr_size in *. destruct Hin as [->|Hin]; [lia|].
      apply (IHr y H3 Hin). lia. }
    destruct (@fix_fields_spec mc dst1 place (ptrs_at m1 a) (s - 3)) as (mf & Ef & Hf1 & Hf2).
    { intros k Hk Hp. destruct (Hkid k Hk Hp) as (c & Hc & Hin). exists c. split.
      - rewrite <- Nat.add_assoc, Hmc_in by lia. rewrite <- Hc. f_equal. lia.
      - rewrite Hl1. apply Hlen; auto. }
    assert (Estep : exists m2, (if N.eqb (ptrs_at mc place) 0 then Some mc
                 else fix_fields mc dst1 place (ptrs_at mc place) (nfields mc place)) = Some m2 /\
               (forall x, x < place + 3 \/ place + s <= x -> m2 x = mc x) /\
               (forall k, k < s - 3 -> (is_ptr (ptrs_at m1 a) k = false -> m2 (place + 3 + k) = m1 (a + 3 + k)) /\
                  (is_ptr (ptrs_at m1 a) k = true -> forall c, m1 (a + 3 + k) = CWord (N.of_nat c) ->
                      m2 (place + 3 + k) = CWord (N.of_nat (dst_of dst1 c))))).
    { assert (Hcell : forall k, k < s - 3 -> mc (place + 3 + k) = m1 (a + 3 + k)).
      { intros k Hk. rewrite <- Nat.add_assoc, Hmc_in by lia. f_equal. lia. }
      rewrite Hptrs, Hnf. destruct (N.eqb_spec (ptrs_at m1 a) 0) as [E0|E0].
      - exists mc. split; auto. split; auto. intros k Hk. rewrite E0, is_ptr_0. split; [auto|discriminate].
      - exists mf. split; auto. split; [intros x Hx; apply Hf1; lia|].
        intros k Hk. destruct (Hf2 k Hk) as [G1 G2]. rewrite Hcell in G1, G2 by auto. auto. }
    destruct Estep as (m2 & Estep & Hs1 & Hs2). rewrite Estep.
    assert (Hhigh : forall x, bump <= x -> m2 x = m x).
    { intros x Hx. rewrite Hs1 by lia. apply Hmc_out. lia. }
    assert (Hm2h : forall k, k < 3 -> m2 (place + k) = m1 (a + k)).
    { intros k Hk. rewrite Hs1 by lia. apply Hmc_in. lia. }
    assert (Hpbump : forall p, In p P -> bump <= dst_of dst p).
    { intros p Hp. apply (tiles_in HT). apply in_map; auto. }
    assert (Hmap : map (dst_of dst1) P = map (dst_of dst) P) by (apply map_ext_in; auto).
    destruct (IH m2 dst1 place a (a :: P)) as (m' & dst' & bump' & E & HS & HT' & Hmv' & Hl2 & Hl3); auto.
    + lia. + lia.
    + intros x Hx. rewrite Hs1 by lia. rewrite Hmc_out by lia. apply Hm. lia.
    + cbn [map]. rewrite Hda1, Hmap. apply tiles_cons with (s := s) (b := b).
      * pose proof (Hm2h 0 ltac:(lia)) as Hz. rewrite !Nat.add_0_r in Hz. congruence.
      * unfold hdr_size; lia.
      * rewrite Hplace. eapply tiles_ext; eauto. intros x Hx s0 b0 Hx0. rewrite Hhigh; eauto.
        apply (tiles_in HT); auto.
    + intros p [<-|Hp]; auto. specialize (HP p Hp). lia.
    + intros p [<-|Hp].
      * unfold moved. rewrite Hda1. pose proof (Hm2h 0 ltac:(lia)) as Hz. rewrite !Nat.add_0_r in Hz.
        rewrite Hz, !Hm2h by lia. split; auto. split; auto. split; auto.
        rewrite Hnf1. intros i Hi. apply Hs2; auto.
      * destruct (Hmv p Hp) as (M1 & M2 & M3 & M4). unfold moved. rewrite (HdP p Hp). pose proof (Hpbump p Hp).
        rewrite !Hhigh by lia. split; auto. split; auto. split; auto.
        intros i Hi. rewrite Hhigh by lia. destruct (M4 i Hi) as [G1 G2]. split; auto.
        intros Hpi c Hc. rewrite (G2 Hpi c Hc). do 2 f_equal. symmetry. apply HdP.
        destruct (HPok p Hp) as [_ HPp]. destruct (HPp i Hi Hpi) as (c' & Hc' & Hin).
        rewrite Hc in Hc'. injection Hc' as Hc'. apply Nat2N.inj in Hc'. subst c'; auto.
    + intros p [<-|Hp].
      * rewrite Esz. split; [unfold hdr_size; lia|]. rewrite Hnf1. intros i Hi Hpi.
        destruct (Hkid i Hi Hpi) as (c & Hc & Hin). exists c. split; auto. right; auto.
      * destruct (HPok p Hp) as [G1 G2]. split; auto. intros i Hi Hpi. destruct (G2 i Hi Hpi) as (c & Hc & Hin).
        exists c. split; auto. right; auto.
    + intros x Hx. destruct (Hr x (or_intror Hx)) as [G1 G2]. split; auto. intros i Hi Hpi.
      destruct (G2 i Hi Hpi) as (c & Hc & Hin & Hlt). exists c. split; auto. split; auto.
      destruct Hin as [|[|]]; auto. left; right; auto. left; left; auto.
    + intros x Hx. rewrite Hl1. apply Hlen. destruct Hx as [[|]|]; auto. right; left; auto. right; right; auto.
    + exists m', dst', bump'. split; auto. cbn [map list_sum fold_right]. rewrite Esz.
      split; [unfold list_sum in *; lia|].
      assert (Erev : rev (a :: r) ++ P = rev r ++ a :: P) by (cbn [rev]; rewrite <- app_assoc; reflexivity).
      rewrite Erev. split; auto. split; auto. split; [|congruence]. intros x Hx. apply Hl2. congruence.
Qed.

(** *** The collector *)
Lemma resize_length l n : length (resize l n) = n.
Proof. unfold resize. rewrite app_length, firstn_length, repeat_length. lia. Qed.

Lemma map_option_map {A B} (f : A -> option B) (g : A -> B) l :
  (forall x, In x l -> f x = Some (g x)) -> map_option f l = Some (map g l).
Proof.
  induction l as [|x l IH]; intros H; [reflexivity|]. cbn [map_option map]. rewrite (H x) by (left; auto).
  rewrite IH by (intros; apply H; right; auto). reflexivity.
Qed.

Lemma sorted_mono m m' (f : addr -> addr) hi cap : forall l lo b,
  asc m lo hi l -> tiles m' b cap (map f l) -> forall x y, In x l -> In y l -> x < y -> f x < f y.
Proof.
  induction l as [|a l IH]; intros lo b Ha HT x y Hx Hy Hlt; [destruct Hx|].
  cbn [asc map] in *. destruct Ha as (H1 & H2 & H3).
  inversion HT as [|? ? s bb l' Hm Hs HT' E1 E2]; subst. unfold hdr_size in *.
  destruct Hx as [<-|Hx], Hy as [<-|Hy].
  - lia.
  - destruct (tiles_in HT' (f y)) as (G1 & _); [apply in_map; auto|]. lia.
  - apply (asc_ge _ _ _ _ H3) in Hx. lia.
  - eapply IH; eauto.
Qed.

(** The number of words [collect] may grow to, and whether it does. *)
Definition grows (h : heap) (live : nat) (ensure_free : nat) : Prop :=
  8 * hcap h < Nat.max (8 * live * 4) (ensure_free + 8 * live).
(** move_dst covers the heap. *)
Definition dst_ok (h : heap) : Prop := hcap h / 3 <= length (hdst h).

Lemma asc_nodup m hi l : forall lo, asc m lo hi l -> NoDup l.
Proof.
  induction l as [|a l IH]; intros lo H; constructor; cbn [asc] in H; destruct H as (H1 & H2 & H3).
  - intros Hin. apply (asc_ge _ _ _ _ H3) in Hin. unfold hdr_size in *. lia.
  - eauto.
Qed.

Lemma collect_spec h objs roots ef :
  wf_heap h objs -> (forall r, In r roots -> In r objs) ->
  exists live,
    NoDup live /\ (forall a, In a live <-> reach (hmem h) roots a) /\ (forall a, In a live -> In a objs) /\
    let words := list_sum (map (size_at (hmem h)) live) in
    (dst_ok h \/ grows h words ef ->
     exists h' f objs',
       collect h roots ef = Some (h', map f roots) /\
       wf_heap h' objs' /\
       objs' = map f live /\
       (forall a b, In a live -> In b live -> a < b -> f a < f b) /\
       (forall a, In a live -> same_obj f (hmem h) (hmem h') a (f a)) /\
       hcap h <= hcap h' /\ allocated h' = words /\ 4 * words <= hcap h' /\
       ef + 8 * words <= 8 * hcap h' /\ hbump h' <= hcap h' /\
       (hcap h' = hcap h /\ length (hdst h') = length (hdst h) \/
        hcap h' = (Nat.max (Nat.max (8 * words * 4) (8 * hcap h)) (ef + 8 * words) + 7) / 8 /\
        length (hdst h') = Nat.max (Nat.max (8 * words * 4) (8 * hcap h)) (ef + 8 * words) / 24)).
Proof.
  intros Hwf Hroots. destruct (mark_phase roots Hwf Hroots) as (m1 & ret & E & Hm1 & Hasc & Hret & Hretin).
  exists ret. split; [eapply asc_nodup; eauto|]. split; auto. split; auto. intros words Hdst.
  unfold collect. rewrite E.
  assert (Ew : list_sum (map (size_at m1) ret) = words).
  { unfold words. f_equal. apply map_ext. intros a. unfold size_at. rewrite Hm1. auto. }
  rewrite Ew. set (min_cap := Nat.max (Nat.max (8 * words * 4) (8 * hcap h)) (ef + 8 * words)).
  destruct Hwf as [HT HO].
  assert (Hobj : forall a, In a ret -> a + 3 <= hcap h).
  { intros a Ha. destruct (tiles_in HT _ (Hretin a Ha)) as (_ & H2 & H3 & _). unfold hdr_size in *. lia. }
  assert (Hd3 : forall a, In a ret -> a / 3 < hcap h / 3).
  { intros a Ha. specialize (Hobj a Ha). pose proof (Nat.div_le_mono (a + 3) (hcap h) 3).
    replace (a + 3) with (a + 1 * 3) in H by lia. rewrite Nat.div_add in H by lia. lia. }
  (* capacity after growing *)
  assert (Hgrow : exists cap' dst0,
     (if 8 * hcap h <? min_cap then ((min_cap + 7) / 8, resize (hdst h) (min_cap / 24)) else (hcap h, hdst h)) = (cap', dst0) /\
     hcap h <= cap' /\ min_cap <= 8 * cap' /\ (forall a, In a ret -> a / 3 < length dst0) /\
     (cap' = hcap h /\ length dst0 = length (hdst h) \/ cap' = (min_cap + 7) / 8 /\ length dst0 = min_cap / 24)).
  { destruct (Nat.ltb_spec (8 * hcap h) min_cap) as [Hlt|Hge].
    - eexists _, _. split; [reflexivity|]. rewrite resize_length.
      pose proof (Nat.div_mod (min_cap + 7) 8). pose proof (Nat.mod_upper_bound (min_cap + 7) 8).
      split; [lia|]. split; [lia|]. split; [|auto]. intros a Ha. specialize (Hd3 a Ha).
      assert (hcap h / 3 <= min_cap / 24); [|lia].
      replace (hcap h / 3) with (8 * hcap h / (8 * 3)) by (apply Nat.div_mul_cancel_l; lia).
      apply Nat.div_le_mono; lia.
    - eexists _, _. split; [reflexivity|]. split; [lia|]. split; [lia|]. split; [|auto].
      destruct Hdst as [Hd|Hd]; [|unfold grows in Hd; unfold min_cap in Hge; lia].
      intros a Ha. specialize (Hd3 a Ha). unfold dst_ok in Hd. lia. }
  destruct Hgrow as (cap' & dst0 & Eg & Hc1 & Hc2 & Hlen0 & Hlen1). rewrite Eg.
  destruct (@compact_spec (hmem h) cap' (rev ret) m1 dst0 cap' (hcap h) []) as (m2 & dst1 & bump' & Ec & HS & HT2 & Hmv & _ & Hl2); auto.
  - apply asc_desc with (lo := hbump h); auto.
  - constructor.
  - intros p [].
  - intros p [].
  - intros p [].
  - intros a Ha. apply in_rev in Ha. split.
    { destruct (tiles_in HT _ (Hretin a Ha)) as (_ & _ & _ & b & Hb). eauto. }
    intros i Hi Hp. destruct (HO a (Hretin a Ha)) as [_ Hk]. destruct (Hk i Hi Hp) as (c & Hc & _ & Hlt).
    exists c. split; auto. split; auto. right. apply -> in_rev. apply Hret. eapply reach_step; [apply Hret; exact Ha|].
    exists i; auto.
  - intros a [[]|Ha]. apply in_rev in Ha. auto.
  - rewrite Ec. rewrite rev_involutive, app_nil_r in HT2, Hmv.
    assert (Eroots : map_option (fun r => nth_error dst1 (r / 3)) roots = Some (map (dst_of dst1) roots)).
    { apply map_option_map. intros r Hr. apply nth_dst_of. rewrite Hl2. apply Hlen0. apply Hret. apply reach_root; auto. }
    rewrite Eroots. exists (mkHeap cap' m2 bump' dst1), (dst_of dst1), (map (dst_of dst1) ret).
    assert (Hmono : forall a b, In a ret -> In b ret -> a < b -> dst_of dst1 a < dst_of dst1 b).
    { eapply sorted_mono; eauto. }
    assert (Hsame : forall a, In a ret -> same_obj (dst_of dst1) (hmem h) m2 a (dst_of dst1 a)).
    { intros a Ha. destruct (Hmv a Ha) as (M1 & M2 & M3 & M4). unfold same_obj.
      split; [unfold size_at; rewrite M1; auto|]. split; [unfold tag_at, word_at; rewrite M3; auto|].
      split; [unfold ptrs_at, word_at; rewrite M2; auto|]. intros i Hi. destruct (M4 i Hi). auto. }
    cbn [hmem hcap hbump hdst]. split; auto. split; [|split; auto; split; auto; split; auto; split; auto].
    { constructor; cbn [hmem hcap hbump]; auto. intros a' Ha'. apply in_map_iff in Ha' as (a & <- & Ha).
      destruct (HO a (Hretin a Ha)) as [Hmk Hk].
      destruct (Hmv a Ha) as (M1 & M2 & M3 & M4). split; [unfold mark_at in *; rewrite M1; auto|].
      assert (En : nfields m2 (dst_of dst1 a) = nfields (hmem h) a) by (unfold nfields, size_at; rewrite M1; auto).
      assert (Ep : ptrs_at m2 (dst_of dst1 a) = ptrs_at (hmem h) a) by (unfold ptrs_at, word_at; rewrite M2; auto).
      rewrite En, Ep. intros i Hi Hp. destruct (Hk i Hi Hp) as (c & Hc & Hin & Hlt).
      assert (Hcr : In c ret).
      { apply Hret. eapply reach_step; [apply Hret; exact Ha|]. exists i; auto. }
      exists (dst_of dst1 c). destruct (M4 i Hi) as [_ G]. split; auto. split; [apply in_map; auto|]. auto. }
    rewrite map_rev in HS.
    assert (Hsum : list_sum (rev (map (size_at (hmem h)) ret)) = words).
    { unfold words. generalize (map (size_at (hmem h)) ret). clear. induction l as [|x l IH]; [reflexivity|].
      cbn [rev]. rewrite list_sum_app, IH. cbn. unfold list_sum; lia. }
    rewrite Hsum in HS. split; [unfold allocated; cbn; lia|]. 
    unfold min_cap in *. split; [lia|]. split; [lia|]. split; [lia|].
    destruct Hlen1 as [[G1 G2]|[G1 G2]]; [left|right]; split; auto; congruence.
Qed.
