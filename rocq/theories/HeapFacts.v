(** Consequences for denotations, and the allocator. *)
From Verif Require Import Ir Heap HeapSpec HeapProofs.
Set Implicit Arguments.

Section TreeInd.
  Variable P : tree -> Prop.
  Hypothesis HI : forall n, P (LInt n).
  Hypothesis HO : forall t b fs, Forall P fs -> P (LObj t b fs).
  Fixpoint tree_ind' (t : tree) : P t :=
    match t with
    | LInt n => HI n
    | LObj tg b fs => HO tg b ((fix all (l : list tree) : Forall P l :=
        match l with [] => Forall_nil _ | x :: r => Forall_cons _ (tree_ind' x) (all r) end) fs)
    end.
End TreeInd.

(** A value denotes at most one tree. *)
Lemma denotes_fun m t : forall v t', denotes m v t -> denotes m v t' -> t = t'.
Proof.
  induction t as [n|tg b fs IH] using tree_ind'; intros v t' H1 H2.
  - inversion H1; subst. inversion H2; auto.
  - inversion H1 as [|a ts HF E1 E2]; subst. inversion H2 as [|a' ts' HF' E1 E2]; subst. f_equal.
    clear H1 H2. revert ts' HF'. generalize (obj_fields m a), HF. clear HF.
    intros l HF. induction HF as [|v t l fs Hv HF IHl]; intros ts' HF'; inversion HF'; subst; auto.
    inversion IH; subst. f_equal; eauto.
Qed.

Lemma in_fields m a v : In v (obj_fields m a) -> exists i, i < nfields m a /\
  v = if is_ptr (ptrs_at m a) i then HPtr (N.to_nat (word_at m (a + 3 + i))) else HInt (word_at m (a + 3 + i)).
Proof.
  unfold obj_fields. intros H. apply in_map_iff in H as (i & <- & Hi). apply in_seq in Hi. exists i. split; [lia|auto].
Qed.
Lemma in_fields_ptr m a c objs : obj_ok m objs a -> In (HPtr c) (obj_fields m a) -> points_to m a c /\ In c objs /\ a < c.
Proof.
  intros [_ Hok] H. apply in_fields in H as (i & Hi & E). destruct (is_ptr (ptrs_at m a) i) eqn:Ep; [|discriminate].
  destruct (Hok i Hi Ep) as (c' & Hc & Hin & Hlt). injection E as E. unfold word_at in E. rewrite Hc, Nat2N.id in E. subst c'.
  split; auto. exists i; auto.
Qed.

(** In a well-formed heap every object denotes a (finite) tree. *)
Lemma denotes_total h objs : wf_heap h objs -> forall a, In a objs -> exists t, denotes (hmem h) (HPtr a) t.
Proof.
  intros [HT HO]. assert (H : forall n a, In a objs -> hcap h - a < n -> exists t, denotes (hmem h) (HPtr a) t).
  { induction n as [|n IH]; intros a Ha Hn; [lia|].
    assert (HF : exists ts, Forall2 (denotes (hmem h)) (obj_fields (hmem h) a) ts).
    { assert (HA : forall v, In v (obj_fields (hmem h) a) -> exists t, denotes (hmem h) v t).
      { intros [x|c] Hv; [eexists; constructor|]. apply (in_fields_ptr _ (HO a Ha)) in Hv as (_ & Hc & Hlt).
        apply IH; auto. pose proof (tiles_in HT _ Hc) as Hb. unfold hdr_size in *. lia. }
      revert HA. generalize (obj_fields (hmem h) a). induction l as [|v l IHl]; intros HA; [exists []; constructor|].
      destruct (HA v (or_introl eq_refl)) as [t Ht]. destruct IHl as [ts Hts]; [intros; apply HA; right; auto|].
      exists (t :: ts). constructor; auto. }
    destruct HF as [ts Hts]. eexists. constructor; eauto. }
  intros a Ha. eapply H; eauto.
Qed.

Definition hmap (f : addr -> addr) (v : hval) : hval := match v with HInt n => HInt n | HPtr a => HPtr (f a) end.

Lemma same_obj_fields f m m' a objs : obj_ok m objs a -> same_obj f m m' a (f a) ->
  obj_fields m' (f a) = map (hmap f) (obj_fields m a) /\ obj_bytes m' (f a) = obj_bytes m a.
Proof.
  intros [_ Hok] (S1 & S2 & S3 & S4). unfold obj_fields, obj_bytes.
  assert (En : nfields m' (f a) = nfields m a) by (unfold nfields; rewrite S1; auto). rewrite En, S3. split.
  - rewrite map_map. apply map_ext_in. intros i Hi. apply in_seq in Hi. destruct (S4 i ltac:(lia)) as [G1 G2].
    destruct (is_ptr (ptrs_at m a) i) eqn:Ep.
    + destruct (Hok i ltac:(lia) Ep) as (c & Hc & _ & _). unfold word_at. rewrite (G1 eq_refl c Hc), Hc, !Nat2N.id. auto.
    + unfold word_at. rewrite (G2 eq_refl). auto.
  - rewrite !flat_map_concat_map. f_equal. apply map_ext_in. intros i Hi. apply in_seq in Hi.
    destruct (S4 i ltac:(lia)) as [G1 G2]. destruct (is_ptr (ptrs_at m a) i) eqn:Ep.
    + destruct (Hok i ltac:(lia) Ep) as (c & Hc & _ & _). rewrite (G1 eq_refl c Hc), Hc. auto.
    + rewrite (G2 eq_refl). auto.
Qed.

(** Copies of closed sets of objects denote the same trees. *)
Lemma denotes_same f m m' (live : addr -> Prop) objs :
  (forall a, live a -> obj_ok m objs a) -> (forall a c, live a -> points_to m a c -> live c) ->
  (forall a, live a -> same_obj f m m' a (f a)) ->
  forall t v, (forall a, v = HPtr a -> live a) -> denotes m v t -> denotes m' (hmap f v) t.
Proof.
  intros Hok Hcl Hs. induction t as [n|tg b fs IH] using tree_ind'; intros v Hv H.
  - inversion H; subst. constructor.
  - inversion H as [|a ts HF E1 E2]; subst. specialize (Hv a eq_refl). cbn [hmap].
    destruct (same_obj_fields (Hok a Hv) (Hs a Hv)) as [F1 F2]. pose proof (Hs a Hv) as (_ & T & _).
    rewrite <- T, <- F2. constructor. rewrite F1.
    assert (HL : forall c, In (HPtr c) (obj_fields m a) -> live c).
    { intros c Hc. eapply Hcl; eauto. eapply in_fields_ptr; eauto. }
    clear -IH HF HL. induction HF as [|v t l fs Hvt HF IHl]; cbn [map]; constructor.
    + inversion IH; subst. apply H1; auto. intros a0 ->. apply HL. left; auto.
    + inversion IH; subst. apply IHl; auto. intros; apply HL; right; auto.
Qed.

Lemma nth_error_ext' {A} (l l' : list A) : (forall i, nth_error l i = nth_error l' i) -> l = l'.
Proof.
  revert l'. induction l as [|x l IH]; intros [|y l'] H; auto; try (specialize (H 0); discriminate).
  pose proof (H 0) as H0. injection H0 as ->. f_equal. apply IH. intros i. apply (H (S i)).
Qed.

(** *** Bitmaps *)
Lemma is_ptr_testbit p i : i < 64 -> is_ptr p i = N.testbit p (N.of_nat i).
Proof.
  intros Hi. unfold is_ptr, shift1. rewrite Nat.mod_small by lia. rewrite N.shiftl_1_l.
  destruct (N.testbit p (N.of_nat i)) eqn:E.
  - apply negb_true_iff, N.eqb_neq. intros H0.
    assert (N.testbit (N.land p (2 ^ N.of_nat i)) (N.of_nat i) = true).
    { rewrite N.land_spec, E, N.pow2_bits_true. reflexivity. }
    rewrite H0 in H. rewrite N.bits_0 in H. discriminate.
  - apply negb_false_iff, N.eqb_eq. apply N.bits_inj. intros j. rewrite N.land_spec, N.bits_0.
    destruct (N.eq_dec j (N.of_nat i)) as [->|Hne]; [rewrite E; auto|].
    rewrite N.pow2_bits_false by auto. apply andb_false_r.
Qed.
Lemma is_ptr_lor p i j : i < 64 -> j < 64 -> is_ptr (N.lor p (shift1 i)) j = is_ptr p j || (i =? j).
Proof.
  intros Hi Hj. rewrite !is_ptr_testbit by auto. rewrite N.lor_spec. f_equal.
  unfold shift1. rewrite Nat.mod_small, N.shiftl_1_l by lia.
  destruct (Nat.eqb_spec i j) as [->|Hne]; [apply N.pow2_bits_true|]. apply N.pow2_bits_false. lia.
Qed.

(** *** Storing fields *)
Definition cell_of (v : hval) : cell := match v with HInt n => CWord n | HPtr a => CWord (N.of_nat a) end.
Definition ptr_val (v : hval) : bool := match v with HPtr _ => true | HInt _ => false end.

Lemma put_field_spec m a i v p : m (a + 1) = CWord p -> i < 64 ->
  exists p', put_field m a i v (a + 1) = CWord p' /\
    put_field m a i v (a + 3 + i) = cell_of v /\
    (forall x, x <> a + 1 -> x <> a + 3 + i -> put_field m a i v x = m x) /\
    (forall j, j < 64 -> is_ptr p' j = is_ptr p j || ((i =? j) && ptr_val v)) /\
    (ptr_val v = false -> p' = p).
Proof.
  intros Hp Hi. destruct v as [n|c]; cbn [put_field cell_of ptr_val].
  - exists p. rewrite upd_ne, upd_eq by lia. split; auto. split; auto. split; [intros; apply upd_ne; auto|].
    split; [|auto]. intros j Hj. rewrite andb_false_r, orb_false_r. auto.
  - unfold ptrs_at, word_at. rewrite (@upd_ne m (a + 3 + i)) by lia. rewrite Hp.
    exists (N.lor p (shift1 i)). rewrite upd_eq. split; auto. split; [rewrite upd_ne by lia; apply upd_eq|].
    split; [intros; rewrite !upd_ne by auto; auto|]. split; [|discriminate].
    intros j Hj. rewrite is_ptr_lor by auto. rewrite andb_true_r. auto.
Qed.

Lemma put_fields_spec a l : forall m p, m (a + 1) = CWord p -> length l <= 64 ->
  exists p', put_fields m a l (a + 1) = CWord p' /\
    (forall i v, nth_error (rev l) i = Some v -> put_fields m a l (a + 3 + i) = cell_of v) /\
    (forall x, x <> a + 1 -> (x < a + 3 \/ a + 3 + length l <= x) -> put_fields m a l x = m x) /\
    (forall j, j < 64 -> is_ptr p' j = is_ptr p j || match nth_error (rev l) j with Some v => ptr_val v | None => false end) /\
    ((forall v, In v l -> ptr_val v = false) -> p' = p).
Proof.
  induction l as [|v l IH]; intros m p Hp Hl; cbn [put_fields].
  - exists p. split; auto. split; [intros [|i] v H; discriminate|]. split; auto. split; [|auto].
    intros j Hj. destruct j; cbn; rewrite orb_false_r; auto.
  - cbn [length] in Hl. destruct (@put_field_spec m a (length l) v p Hp ltac:(lia)) as (p1 & A1 & A2 & A3 & A4 & A5).
    destruct (IH _ p1 A1 ltac:(lia)) as (p' & B1 & B2 & B3 & B4 & B5). exists p'. split; auto. cbn [rev].
    assert (Hrl : length (rev l) = length l) by apply rev_length.
    split; [|split; [|split]].
    + intros i w Hi. destruct (Nat.lt_ge_cases i (length l)).
      * rewrite nth_error_app1 in Hi by lia. auto.
      * rewrite nth_error_app2 in Hi by lia. rewrite Hrl in Hi. destruct (i - length l) as [|k] eqn:Ek; [|destruct k; discriminate].
        injection Hi as <-. assert (i = length l) by lia. subst i. rewrite B3 by lia. auto.
    + intros x Hx Hr. cbn [length] in Hr. rewrite B3 by lia. apply A3; lia.
    + intros j Hj. rewrite B4, A4 by auto. destruct (Nat.lt_ge_cases j (length l)).
      * rewrite nth_error_app1 by lia. destruct (Nat.eqb_spec (length l) j); [lia|]. cbn [andb]. rewrite orb_false_r. auto.
      * rewrite nth_error_app2 by lia. rewrite Hrl. rewrite (proj2 (nth_error_None (rev l) j)) by lia. rewrite orb_false_r.
        destruct (Nat.eqb_spec (length l) j) as [<-|Hne]; [rewrite Nat.sub_diag; auto|].
        cbn [andb]. f_equal. destruct (j - length l) as [|k] eqn:Ek; [lia|]. destruct k; auto.
    + intros H. rewrite B5 by (intros; apply H; right; auto). apply A5. apply H. left; auto.
Qed.

Lemma put_fields_frame a l : forall m x, x < a + 1 \/ (a + 1 < x /\ x < a + 3) \/ a + 3 + length l <= x -> put_fields m a l x = m x.
Proof.
  induction l as [|v l IH]; intros m x Hx; cbn [put_fields]; auto. cbn [length] in Hx. rewrite IH by lia.
  destruct v as [n|c]; cbn [put_field]; rewrite ?upd_ne by lia; auto.
Qed.

Definition vals_ok (objs : list addr) (l : list hval) : Prop := forall a, In (HPtr a) l -> In a objs.

(** Objects allocated earlier are untouched. *)
Definition framed (h h' : heap) : Prop := forall x, hbump h <= x -> hmem h' x = hmem h x.

Lemma raw_alloc_inv h tag n h' a : raw_alloc h tag n = Some (h', a) ->
  a + 3 + n = hbump h /\ hbump h' = a /\ hcap h' = hcap h /\ hdst h' = hdst h /\ framed h h' /\
  hmem h' a = CHdr (3 + n) false /\ hmem h' (a + 1) = CWord 0 /\ hmem h' (a + 2) = CWord tag.
Proof.
  unfold raw_alloc, hdr_size. destruct (Nat.ltb_spec (hbump h) (3 + n)); [discriminate|]. intros E. injection E as <- <-.
  cbn [hmem hcap hbump hdst]. repeat split; auto; try lia.
  - intros x Hx. cbn [hmem]. rewrite !upd_ne by lia. auto.
  - rewrite !upd_ne by lia. apply upd_eq.
  - rewrite upd_ne by lia. apply upd_eq.
  - apply upd_eq.
Qed.

Lemma alloc_enough h tag n : hdr_size + n <= hbump h <-> exists r, raw_alloc h tag n = Some r.
Proof.
  unfold raw_alloc. destruct (Nat.ltb_spec (hbump h) (hdr_size + n)); split; intros; try lia; eauto.
  destruct H0; discriminate.
Qed.

(** Well-formedness after adding an object below the others. *)
Lemma wf_extend h objs m' a s : wf_heap h objs ->
  a + s = hbump h -> hdr_size <= s -> (forall x, hbump h <= x -> m' x = hmem h x) ->
  m' a = CHdr s false ->
  (forall i, i < s - 3 -> is_ptr (ptrs_at m' a) i = true -> exists c, m' (a + 3 + i) = CWord (N.of_nat c) /\ In c objs) ->
  wf_heap (mkHeap (hcap h) m' a (hdst h)) (a :: objs).
Proof.
  intros [HT HO] Ha Hs Hfr Hh Hp. constructor; cbn [hmem hcap hbump].
  - econstructor; eauto. rewrite Ha. eapply tiles_ext; eauto. intros x Hx s0 b0 E.
    exists b0. rewrite Hfr; auto. apply (tiles_in HT); auto.
  - intros x [<-|Hx].
    + split; [unfold mark_at; rewrite Hh; auto|]. unfold nfields, size_at. rewrite Hh.
      intros i Hi Hpi. destruct (Hp i Hi Hpi) as (c & Hc & Hin). exists c. split; auto. split; [right; auto|].
      pose proof (tiles_in HT _ Hin). unfold hdr_size in *. lia.
    + pose proof (tiles_in HT _ Hx) as (G1 & G2 & G3 & _). unfold hdr_size in *. destruct (HO x Hx) as [O1 O2].
      assert (En : nfields m' x = nfields (hmem h) x) by (unfold nfields, size_at; rewrite Hfr by lia; auto).
      assert (Ep : ptrs_at m' x = ptrs_at (hmem h) x) by (unfold ptrs_at, word_at; rewrite Hfr by lia; auto).
      split; [unfold mark_at in *; rewrite Hfr by lia; auto|]. rewrite En, Ep. intros i Hi Hpi.
      destruct (O2 i Hi Hpi) as (c & Hc & Hin & Hlt). exists c. rewrite Hfr by (unfold nfields, hdr_size in Hi; lia).
      split; auto. split; auto. right; auto.
Qed.

Lemma alloc_obj_spec h objs tag popped h' a :
  wf_heap h objs -> vals_ok objs popped -> length popped <= 64 ->
  alloc_obj h tag popped = Some (h', a) ->
  wf_heap h' (a :: objs) /\ a + 3 + length popped = hbump h /\ hbump h' = a /\ hcap h' = hcap h /\ hdst h' = hdst h /\
  framed h h' /\ size_at (hmem h') a = 3 + length popped /\
  tag_at (hmem h') a = tag /\ obj_fields (hmem h') a = rev popped /\ obj_bytes (hmem h') a = [].
Proof.
  intros Hwf Hv Hl E. unfold alloc_obj in E. destruct (raw_alloc h tag (length popped)) as [[h1 a1]|] eqn:Er; [|discriminate].
  injection E as <- <-. apply raw_alloc_inv in Er as (R1 & R2 & R3 & R4 & R5 & R6 & R7 & R8).
  destruct (@put_fields_spec a1 popped (hmem h1) 0%N R7 Hl) as (p' & P1 & P2 & P3 & P4 & P5).
  cbn [hmem hcap hbump hdst]. set (m' := put_fields (hmem h1) a1 popped) in *.
  assert (Hh : m' a1 = CHdr (3 + length popped) false) by (rewrite P3 by lia; auto).
  assert (Hfr : forall x, hbump h <= x -> m' x = hmem h x).
  { intros x Hx. rewrite P3 by lia. apply R5; auto. }
  assert (Hpt : ptrs_at m' a1 = p') by (unfold ptrs_at, word_at; rewrite P1; auto).
  assert (Hnf : nfields m' a1 = length popped) by (unfold nfields, size_at; rewrite Hh; cbn; lia).
  assert (Hf : obj_fields m' a1 = rev popped).
  { unfold obj_fields. rewrite Hnf, Hpt. apply nth_error_ext'. intros i.
    destruct (Nat.lt_ge_cases i (length popped)) as [Hi|Hi].
    - rewrite nth_error_map. rewrite nth_error_nth' with (d := 0) by (rewrite seq_length; auto).
      rewrite seq_nth by auto. cbn [option_map plus].
      destruct (nth_error (rev popped) i) as [v|] eqn:En.
      2:{ apply nth_error_None in En. rewrite rev_length in En. lia. }
      rewrite P4 by lia. rewrite En. unfold word_at. rewrite (P2 i v En). 
      replace (is_ptr 0 i) with false by reflexivity. destruct v; cbn; rewrite ?Nat2N.id; auto.
    - rewrite (proj2 (nth_error_None _ _)) by (rewrite map_length, seq_length; auto).
      symmetry. apply nth_error_None. rewrite rev_length; auto. }
  assert (W : wf_heap (mkHeap (hcap h) m' a1 (hdst h)) (a1 :: objs)).
  { apply wf_extend with (s := 3 + length popped); auto; try (unfold hdr_size; lia).
    intros i Hi Hp. rewrite Hpt, P4 in Hp by lia.
    destruct (nth_error (rev popped) i) as [[n|c]|] eqn:En; try discriminate.
    exists c. rewrite (P2 i _ En). split; auto. apply Hv. apply in_rev. eapply nth_error_In; eauto. }
  rewrite R2, R3, R4. split; [exact W|]. split; [lia|]. split; auto. split; auto. split; auto. split; [exact Hfr|].
  split; [|split; [|split; [exact Hf|]]].
  - unfold size_at. rewrite Hh. auto.
  - unfold tag_at, word_at. rewrite P3 by lia. rewrite R8. auto.
  - unfold obj_bytes. rewrite Hnf. rewrite flat_map_concat_map.
    assert (Hn : forall i, i < length popped -> match m' (a1 + 3 + i) with CBytes bs => bs | _ => [] end = []).
    { intros i Hi. destruct (nth_error (rev popped) i) as [v|] eqn:En.
      2:{ apply nth_error_None in En. rewrite rev_length in En. lia. }
      rewrite (P2 i v En). destruct v; auto. }
    clear -Hn. assert (Hs : forall k n, k + n <= length popped -> concat (map (fun i => match m' (a1 + 3 + i) with CBytes bs => bs | _ => [] end) (List.seq k n)) = []).
    { intros k n. revert k. induction n as [|n IH]; intros k Hk; [reflexivity|]. cbn [List.seq map concat]. rewrite Hn by lia. apply IH. lia. }
    apply Hs. lia.
Qed.

(** *** Strings *)
Lemma put_bytes_spec n : forall m a bs, length bs <= 8 * n ->
  (forall x, x < a \/ a + n <= x -> put_bytes n m a bs x = m x) /\
  flat_map (fun i => match put_bytes n m a bs (a + i) with CBytes b => b | _ => [] end) (List.seq 0 n) = bs /\
  (forall i, i < n -> exists b, put_bytes n m a bs (a + i) = CBytes b).
Proof.
  induction n as [|n IH]; intros m a bs Hl; cbn [put_bytes].
  - split; auto. split; [destruct bs; [auto|cbn in Hl; lia]|]. intros i Hi; lia.
  - destruct (IH (upd m a (CBytes (firstn 8 bs))) (S a) (skipn 8 bs)) as (F & B & C).
    { rewrite skipn_length. lia. }
    assert (H0 : put_bytes n (upd m a (CBytes (firstn 8 bs))) (S a) (skipn 8 bs) a = CBytes (firstn 8 bs)).
    { rewrite F by lia. apply upd_eq. }
    split; [|split].
    + intros x Hx. rewrite F by lia. apply upd_ne. lia.
    + cbn [List.seq flat_map]. rewrite Nat.add_0_r, H0. rewrite <- seq_shift, flat_map_concat_map, map_map.
      rewrite flat_map_concat_map in B. transitivity (firstn 8 bs ++ skipn 8 bs); [|apply firstn_skipn]. f_equal.
      transitivity (concat (map (fun i => match put_bytes n (upd m a (CBytes (firstn 8 bs))) (S a) (skipn 8 bs) (S a + i) with CBytes b => b | _ => [] end) (List.seq 0 n))); [|exact B].
      f_equal. apply map_ext. intros i. replace (a + S i) with (S a + i) by lia. auto.
    + intros i Hi. destruct i as [|i]; [rewrite Nat.add_0_r; eauto|].
      replace (a + S i) with (S a + i) by lia. apply C. lia.
Qed.

Lemma words_for_enough n : n <= 8 * words_for n.
Proof. unfold words_for. pose proof (Nat.div_mod (n + 7) 8). pose proof (Nat.mod_upper_bound (n + 7) 8). lia. Qed.

Lemma alloc_str_spec h objs tag bs h' a :
  wf_heap h objs -> alloc_str h tag bs = Some (h', a) ->
  wf_heap h' (a :: objs) /\ a + 3 + words_for (length bs) = hbump h /\ hbump h' = a /\ hcap h' = hcap h /\ hdst h' = hdst h /\
  framed h h' /\ size_at (hmem h') a = 3 + words_for (length bs) /\
  tag_at (hmem h') a = tag /\ obj_bytes (hmem h') a = bs /\ (forall v, In v (obj_fields (hmem h') a) -> v = HInt 0).
Proof.
  intros Hwf E. unfold alloc_str in E. destruct (raw_alloc h tag (words_for (length bs))) as [[h1 a1]|] eqn:Er; [|discriminate].
  injection E as <- <-. apply raw_alloc_inv in Er as (R1 & R2 & R3 & R4 & R5 & R6 & R7 & R8).
  set (n := words_for (length bs)) in *.
  destruct (@put_bytes_spec n (hmem h1) (a1 + 3) bs (words_for_enough _)) as (F & B & C).
  cbn [hmem hcap hbump hdst]. set (m' := put_bytes n (hmem h1) (a1 + 3) bs) in *.
  assert (Hh : m' a1 = CHdr (3 + n) false) by (rewrite F by lia; auto).
  assert (Hfr : forall x, hbump h <= x -> m' x = hmem h x).
  { intros x Hx. rewrite F by lia. apply R5; auto. }
  assert (Hpt : ptrs_at m' a1 = 0%N) by (unfold ptrs_at, word_at; rewrite F by lia; rewrite R7; auto).
  assert (Hnf : nfields m' a1 = n) by (unfold nfields, size_at; rewrite Hh; cbn; lia).
  assert (W : wf_heap (mkHeap (hcap h) m' a1 (hdst h)) (a1 :: objs)).
  { apply wf_extend with (s := 3 + n); auto; try (unfold hdr_size; lia).
    intros i Hi Hp. rewrite Hpt in Hp. discriminate. }
  rewrite R2, R3, R4. split; [exact W|]. split; [lia|]. split; auto. split; auto. split; auto. split; [exact Hfr|].
  split; [unfold size_at; rewrite Hh; auto|]. split; [unfold tag_at, word_at; rewrite F by lia; rewrite R8; auto|].
  split; [unfold obj_bytes; rewrite Hnf; exact B|].
  intros v Hv. apply in_fields in Hv as (i & Hi & ->). rewrite Hpt, is_ptr_0. f_equal. rewrite Hnf in Hi.
  destruct (C i Hi) as (b & Hb). unfold word_at. rewrite Hb. auto.
Qed.

(** *** Frames keep denotations *)
Lemma framed_same h h' objs a : wf_heap h objs -> framed h h' -> In a objs -> same_obj (fun x => x) (hmem h) (hmem h') a a.
Proof.
  intros [HT HO] Hf Ha. pose proof (tiles_in HT _ Ha) as (G1 & G2 & G3 & _). unfold hdr_size in *. unfold same_obj.
  split; [unfold size_at; rewrite Hf by lia; auto|]. split; [unfold tag_at, word_at; rewrite Hf by lia; auto|].
  split; [unfold ptrs_at, word_at; rewrite Hf by lia; auto|]. intros i Hi.
  assert (Hx : hbump h <= a + 3 + i) by lia. rewrite Hf by auto. split; auto. 
Qed.
Lemma hmap_id v : hmap (fun x => x) v = v.
Proof. destruct v; auto. Qed.
Lemma framed_denotes h h' objs v t : wf_heap h objs -> framed h h' -> (forall a, v = HPtr a -> In a objs) ->
  denotes (hmem h) v t -> denotes (hmem h') v t.
Proof.
  intros Hwf Hf Hv H. rewrite <- (hmap_id v). eapply (@denotes_same (fun x => x) (hmem h) (hmem h') (fun a => In a objs) objs); eauto.
  - apply Hwf.
  - intros a c Ha (i & Hi & Hp & Hc). destruct (wf_objs Hwf a Ha) as [_ O]. destruct (O i Hi Hp) as (c' & Hc' & Hin & _).
    rewrite Hc in Hc'. injection Hc' as E. apply Nat2N.inj in E. subst; auto.
  - intros a Ha. eapply framed_same; eauto.
Qed.
