(** Proofs about editor positions. *)
From Verif Require Import LspSpec.
Set Implicit Arguments.

(** ** Slicing *)
Lemma len_utf8_pos c : 1 <= len_utf8 c.
Proof. unfold len_utf8. repeat destruct (_ <? _)%N; lia. Qed.
Lemma len_utf16_pos c : 1 <= len_utf16 c.
Proof. unfold len_utf16. destruct (_ <? _)%N; lia. Qed.
Lemma bytes_cons c p : bytes_len (c :: p) = len_utf8 c + bytes_len p.
Proof. reflexivity. Qed.
Lemma bytes_app p q : bytes_len (p ++ q) = bytes_len p + bytes_len q.
Proof. unfold bytes_len. rewrite map_app, list_sum_app. auto. Qed.
Lemma utf16_app p q : utf16_len (p ++ q) = utf16_len p + utf16_len q.
Proof. unfold utf16_len. rewrite map_app, list_sum_app. auto. Qed.
Lemma bytes_zero p : bytes_len p = 0 -> p = [].
Proof. destruct p as [|c p]; auto. rewrite bytes_cons. pose proof (len_utf8_pos c). lia. Qed.

Lemma drop_app p q : drop_bytes (bytes_len p) (p ++ q) = Some q.
Proof.
  induction p as [|c p IH]; [destruct q; auto|]. rewrite bytes_cons. simpl app. cbn [drop_bytes].
  pose proof (len_utf8_pos c). destruct (len_utf8 c + bytes_len p) as [|k] eqn:E; [lia|]. rewrite <- E.
  destruct (Nat.leb_spec (len_utf8 c) (len_utf8 c + bytes_len p)); [|lia].
  replace (len_utf8 c + bytes_len p - len_utf8 c) with (bytes_len p) by lia. auto.
Qed.
Lemma take_app p q : take_bytes (bytes_len p) (p ++ q) = Some p.
Proof.
  induction p as [|c p IH]; [destruct q; auto|]. rewrite bytes_cons. simpl app. cbn [take_bytes].
  pose proof (len_utf8_pos c). destruct (len_utf8 c + bytes_len p) as [|k] eqn:E; [lia|]. rewrite <- E.
  destruct (Nat.leb_spec (len_utf8 c) (len_utf8 c + bytes_len p)); [|lia].
  replace (len_utf8 c + bytes_len p - len_utf8 c) with (bytes_len p) by lia. rewrite IH. auto.
Qed.
Lemma slice_app a b c : slice (bytes_len a) (bytes_len (a ++ b)) (a ++ b ++ c) = Some b.
Proof.
  unfold slice. rewrite bytes_app, (proj2 (Nat.leb_le _ _)) by lia. rewrite drop_app.
  replace (_ + _ - _) with (bytes_len b) by lia. apply take_app.
Qed.

(** Two boundaries of the same text are ordered as prefixes. *)
Lemma split_order (p q p' q' : list char) : p ++ q = p' ++ q' -> bytes_len p <= bytes_len p' ->
  exists m, p' = p ++ m /\ q = m ++ q'.
Proof.
  revert p'; induction p as [|c p IH]; intros p' E H; simpl in *; [eauto|].
  destruct p' as [|c' p'].
  - rewrite bytes_cons in H. pose proof (len_utf8_pos c). change (bytes_len []) with 0 in H. lia.
  - simpl in E. injection E as <- E. rewrite !bytes_cons in H. destruct (IH _ E) as (m & -> & ->); [lia|].
    exists m; auto.
Qed.
Lemma boundary_unique s off p p' : text_before s off p -> text_before s off p' -> p = p'.
Proof.
  intros (q & E & H) (q' & E' & H'). assert (EE : p ++ q = p' ++ q') by congruence.
  destruct (split_order _ _ _ _ EE) as (m & -> & ->); [lia|]. rewrite bytes_app in H'.
  assert (m = []) as -> by (apply bytes_zero; lia). rewrite app_nil_r; auto.
Qed.

(** ** Line starts *)
Fixpoint starts (off : nat) (s : list char) : list nat :=
  match s with
  | [] => []
  | c :: r => if (c =? newline)%N then (off + len_utf8 c) :: starts (off + len_utf8 c) r else starts (off + len_utf8 c) r
  end.
Definition all_starts (s : list char) : list nat := 0 :: starts 0 s.
Definition nls (p : list char) : nat := count_occ N.eq_dec p newline.

Lemma starts_app p q : forall off, starts off (p ++ q) = starts off p ++ starts (off + bytes_len p) q.
Proof.
  induction p as [|c p IH]; intros off; simpl; [rewrite Nat.add_0_r; auto|].
  rewrite IH, bytes_cons, Nat.add_assoc. destruct (c =? newline)%N; auto.
Qed.
Lemma starts_length p : forall off, length (starts off p) = nls p.
Proof.
  unfold nls. induction p as [|c p IH]; intros off; simpl; auto.
  destruct (N.eqb_spec c newline); destruct (N.eq_dec c newline); try congruence; simpl; rewrite IH; auto.
Qed.
Lemma starts_range p : forall off, Forall (fun x => off < x <= off + bytes_len p) (starts off p).
Proof.
  induction p as [|c p IH]; intros off; simpl; auto. pose proof (len_utf8_pos c). rewrite bytes_cons.
  assert (Forall (fun x => off < x <= off + (len_utf8 c + bytes_len p)) (starts (off + len_utf8 c) p)).
  { eapply Forall_impl; [|apply IH]. simpl; intros; lia. }
  destruct (c =? newline)%N; auto. constructor; auto. lia.
Qed.
Lemma nls_app p q : nls (p ++ q) = nls p + nls q.
Proof. apply count_occ_app. Qed.
Lemma nls_length p : nls p <= length p.
Proof. apply count_occ_bound. Qed.

(** The text splits at the [k]-th line start. *)
Lemma starts_split s : forall k off x, nth_error (starts off s) k = Some x ->
  exists p q, s = p ++ q /\ x = off + bytes_len p /\ nls p = S k /\ last_line p = [] /\ p <> [] /\ starts off p <> [].
Proof.
  induction s as [|c s IH]; intros k off x H; [destruct k; discriminate|]. simpl in H.
  assert (Hrec : forall k', nth_error (starts (off + len_utf8 c) s) k' = Some x ->
     exists p q, c :: s = (c :: p) ++ q /\ x = off + bytes_len (c :: p) /\ nls p = S k' /\ last_line (c :: p) = []).
  { intros k' H'. destruct (IH _ _ _ H') as (p & q & -> & -> & Hn & Hl & Hne & _). exists p, q.
    rewrite bytes_cons. repeat split; auto; [lia|]. simpl.
    assert (E : existsb (fun y => (y =? newline)%N) p = true).
    { apply existsb_exists. exists newline. split; [|apply N.eqb_refl].
      apply (count_occ_In N.eq_dec). unfold nls in Hn. lia. }
    rewrite E; auto. }
  destruct (N.eqb_spec c newline) as [->|Hc].
  - destruct k as [|k]; simpl in H.
    + injection H as <-. exists [newline], s. repeat split; auto; discriminate.
    + destruct (Hrec _ H) as (p & q & E & Hx & Hn & Hl). exists (newline :: p), q. repeat split; auto; try discriminate.
      unfold nls in *. simpl. rewrite Hn. auto.
  - destruct (Hrec _ H) as (p & q & E & Hx & Hn & Hl). exists (c :: p), q. repeat split; auto; try discriminate.
    + unfold nls in *. simpl. destruct (N.eq_dec c newline); [congruence|auto].
    + intros Hs. assert (El := starts_length (c :: p) off). rewrite Hs in El. simpl in El.
      unfold nls in *. simpl in El. destruct (N.eq_dec c newline); congruence.
Qed.

Lemma all_split s k x : nth_error (all_starts s) k = Some x ->
  exists p q, s = p ++ q /\ x = bytes_len p /\ nls p = k /\ last_line p = [].
Proof.
  destruct k as [|k]; simpl; intros H.
  - injection H as <-. exists [], s. auto.
  - destruct (starts_split _ _ _ H) as (p & q & -> & -> & Hn & Hl & _). exists p, q. auto.
Qed.

(** Looking for the next newline. *)
Lemma find_nl_spec q : forall i, match find_nl i q with
  | Some j => exists m r, q = m ++ newline :: r /\ nls m = 0 /\ j = i + bytes_len m
  | None => nls q = 0
  end.
Proof.
  induction q as [|c q IH]; intros i; simpl; auto. unfold nls in *. simpl.
  destruct (N.eqb_spec c newline) as [->|Hc].
  - exists [], q. repeat split; auto; simpl; lia.
  - destruct (N.eq_dec c newline); [congruence|]. specialize (IH (i + len_utf8 c)).
    destruct (find_nl (i + len_utf8 c) q); auto. destruct IH as (m & r & -> & Hm & ->).
    exists (c :: m), r. rewrite bytes_cons. repeat split; auto; [|lia]. simpl. destruct (N.eq_dec c newline); congruence.
Qed.

Definition inv (s : list char) (t : translator) : Prop :=
  exists k, k < length (all_starts s) /\ line_starts t = firstn (S k) (all_starts s) /\
            (complete t = true -> line_starts t = all_starts s).

Lemma last_firstn {A} (l : list A) k d : k < length l -> nth_error l k = Some (last (firstn (S k) l) d).
Proof.
  revert k; induction l as [|x l IH]; intros k H; simpl in *; [lia|].
  destruct k as [|k]; [destruct l; auto|]. simpl nth_error. rewrite IH by lia.
  destruct l as [|y l]; [simpl in *; lia|]. reflexivity.
Qed.
Lemma firstn_snoc {A} (l : list A) k x : nth_error l k = Some x -> firstn (S k) l = firstn k l ++ [x].
Proof.
  revert k; induction l as [|y l IH]; intros [|k] H; simpl in *; try discriminate.
  - injection H as ->; auto.
  - rewrite <- IH; auto.
Qed.

Lemma find_next_inv s t : inv s t -> exists t', find_next s t = Some t' /\ inv s t' /\
  (complete t' = complete t /\ length (line_starts t') = S (length (line_starts t)) \/ complete t' = true).
Proof.
  intros (k & Hk & Hl & Hc). unfold find_next.
  pose proof (last_firstn (all_starts s) 0 Hk) as Hlast. rewrite <- Hl in Hlast.
  destruct (all_split _ _ Hlast) as (p & q & E & Ex & Hn & _).
  assert (Hd : drop_bytes (last (line_starts t) 0) s = Some q) by (rewrite Ex, E; apply drop_app).
  rewrite Hd. pose proof (find_nl_spec q 0) as Hf.
  assert (Hall : all_starts s = all_starts p ++ starts (bytes_len p) q).
  { unfold all_starts. rewrite E, starts_app. auto. }
  assert (Hlp : length (all_starts p) = S k) by (simpl; rewrite starts_length; auto).
  destruct (find_nl 0 q) as [i|].
  - destruct Hf as (m & r & -> & Hm & ->). eexists; split; [reflexivity|].
    assert (Hnext : nth_error (all_starts s) (S k) = Some (last (line_starts t) 0 + (0 + bytes_len m) + 1)).
    { rewrite Hall, nth_error_app2 by lia. rewrite Hlp, Nat.sub_diag, starts_app.
      pose proof (starts_length m (bytes_len p)) as Hz. rewrite Hm in Hz. destruct (starts (bytes_len p) m); [|discriminate].
      cbn [app starts]. change (newline =? newline)%N with true. change (len_utf8 newline) with 1. cbn [nth_error]. f_equal. rewrite Ex. lia. }
    split.
    + exists (S k). split; [apply nth_error_Some; rewrite Hnext; discriminate|]. cbn [line_starts complete]. split.
      * rewrite (firstn_snoc _ _ Hnext), Hl. auto.
      * intros C. specialize (Hc C). rewrite Hl in Hc. exfalso.
        assert (Hx : S k < length (all_starts s)) by (apply nth_error_Some; rewrite Hnext; discriminate).
        rewrite <- Hc in Hx at 1. rewrite firstn_length in Hx. lia.
    + left. cbn. rewrite app_length. simpl. split; auto. lia.
  - eexists; split; [reflexivity|]. split; [|right; auto]. exists k. cbn [line_starts complete]. repeat split; auto.
    intros _. rewrite Hl, Hall. pose proof (starts_length q (bytes_len p)) as Hz. rewrite Hf in Hz.
    destruct (starts (bytes_len p) q); [|discriminate]. rewrite app_nil_r, firstn_all2; auto; lia.
Qed.

Lemma inv_init s : inv s for_source.
Proof. exists 0. split; [simpl; lia|]. split; auto. discriminate. Qed.

Lemma all_starts_length s : length (all_starts s) <= S (length s).
Proof. simpl. rewrite starts_length. pose proof (nls_length s). lia. Qed.

Lemma scan_inv cond s fuel : forall t, inv s t -> length s + 2 <= fuel + length (line_starts t) ->
  exists t', scan fuel cond s t = Some t' /\ inv s t' /\ (complete t' = true \/ cond t' = false).
Proof.
  induction fuel as [|fuel IH]; intros t Hi Hf.
  - assert (Hlen : length (line_starts t) <= length (all_starts s)).
    { destruct Hi as (k & Hk & -> & _). rewrite firstn_length. lia. }
    pose proof (all_starts_length s). exfalso. lia.
  - cbn [scan]. destruct (complete t) eqn:C; [exists t; simpl; auto|].
    destruct (cond t) eqn:E; [|exists t; simpl; auto]. simpl.
    destruct (find_next_inv Hi) as (t' & -> & Hi' & Hp).
    destruct Hp as [[_ Hp]|Hp]; [apply IH; auto; lia|].
    exists t'. assert (scan fuel cond s t' = Some t') as -> by (destruct fuel; simpl; rewrite Hp; auto). auto.
Qed.

Lemma inv_nonempty s t : inv s t -> 1 <= length (line_starts t).
Proof. intros (k & Hk & -> & _). rewrite firstn_length. lia. Qed.

Lemma filter_all {A} (f : A -> bool) l : Forall (fun x => f x = true) l -> filter f l = l.
Proof. induction 1; simpl; auto. rewrite H, IHForall; auto. Qed.
Lemma filter_none {A} (f : A -> bool) l : Forall (fun x => f x = false) l -> filter f l = [].
Proof. induction 1; simpl; auto. rewrite H; auto. Qed.
Lemma Forall_firstn' {A} (P : A -> Prop) l n : Forall P l -> Forall P (firstn n l).
Proof. intros H; revert n; induction H; intros [|n]; simpl; auto. Qed.

(** Starts up to a boundary, starts after it. *)
Lemma starts_before p q : Forall (fun x => x <= bytes_len p) (all_starts p) /\
                          Forall (fun x => bytes_len p < x) (starts (bytes_len p) q).
Proof.
  split.
  - constructor; [lia|]. eapply Forall_impl; [|apply starts_range]. simpl; intros; lia.
  - eapply Forall_impl; [|apply starts_range]. simpl; intros; lia.
Qed.

Lemma line_index_spec s t pos p : inv s t -> text_before s pos p ->
  exists t', line_index s t pos = Some (t', nls p) /\ inv s t' /\
             nls p < length (line_starts t') /\
             (complete t' = true \/ pos < last (line_starts t') 0).
Proof.
  intros Hi (q & E & Hp). unfold line_index.
  destruct (@scan_inv (fun t => last (line_starts t) 0 <=? pos) s (scan_fuel s) t Hi) as (t' & -> & Hi' & Hc).
  { unfold scan_fuel. lia. }
  exists t'. destruct (starts_before p q) as [Hb Ha].
  assert (Hall : all_starts s = all_starts p ++ starts (bytes_len p) q) by (unfold all_starts; rewrite E, starts_app; auto).
  assert (Hlp : length (all_starts p) = S (nls p)) by (simpl; rewrite starts_length; auto).
  assert (Hlast : complete t' = true \/ pos < last (line_starts t') 0).
  { destruct Hc as [Hc|Hc]; auto. apply Nat.leb_gt in Hc. auto. }
  assert (Hk : exists k, line_starts t' = firstn (S k) (all_starts s) /\ nls p <= k /\ k < length (all_starts s)).
  { destruct Hi' as (k & Hk & Hl & Hcc). destruct (Nat.le_gt_cases (nls p) k) as [Hle|Hgt]; [eauto|].
    exfalso. destruct Hlast as [Hlast|Hlast].
    - specialize (Hcc Hlast). rewrite Hl in Hcc. apply (f_equal (@length nat)) in Hcc. rewrite firstn_length in Hcc.
      rewrite Hall, app_length in *. lia.
    - pose proof (last_firstn _ 0 Hk) as Hx. rewrite <- Hl in Hx. rewrite Hall, nth_error_app1 in Hx by lia.
      apply nth_error_In in Hx. rewrite Forall_forall in Hb. apply Hb in Hx. lia. }
  destruct Hk as (k & Hl & Hle & Hlt). rewrite Hl at 1.
  assert (Hf : length (filter (fun x => x <=? pos) (firstn (S k) (all_starts s))) = S (nls p)).
  { rewrite Hall, firstn_app, filter_app, app_length, Hlp.
    rewrite filter_none with (l := firstn (S k - S (nls p)) _).
    - rewrite firstn_all2 by lia. rewrite filter_all; [rewrite Hlp; simpl; lia|].
      eapply Forall_impl; [|exact Hb]. simpl; intros; apply Nat.leb_le; lia.
    - apply Forall_firstn'. eapply Forall_impl; [|exact Ha]. simpl; intros; apply Nat.leb_gt; lia. }
  rewrite Hf. replace (S (nls p) - 1) with (nls p) by lia. repeat split; auto.
  rewrite Hl, firstn_length. lia.
Qed.

Lemma last_line_app p m : nls m = 0 -> last_line (p ++ m) = last_line p ++ m.
Proof.
  intros Hm. assert (Hex : forall l, nls l = 0 -> existsb (fun x => x =? newline)%N l = false).
  { intros l Hl. destruct (existsb (fun x => x =? newline)%N l) eqn:E; auto. apply existsb_exists in E as (x & Hin & Hx).
    apply N.eqb_eq in Hx; subst. apply (count_occ_In N.eq_dec) in Hin. unfold nls in Hl. lia. }
  induction p as [|c p IH]; simpl.
  - destruct m as [|c m]; auto. simpl. unfold nls in Hm; simpl in Hm. destruct (N.eq_dec c newline); [discriminate|].
    rewrite Hex by auto. destruct (N.eqb_spec c newline); congruence.
  - rewrite existsb_app, (Hex m Hm), orb_false_r. destruct (existsb (fun x : N => (x =? newline)%N) p); [exact IH|]. destruct (c =? newline)%N; reflexivity.
Qed.
(** The last line of [p]: [p] splits at the last newline. *)
Lemma last_line_split p : exists b, p = b ++ last_line p /\ nls (last_line p) = 0 /\ nls b = nls p /\ last_line b = [] /\
  nth_error (all_starts p) (nls p) = Some (bytes_len b).
Proof.
  assert (Hn : nls p < length (all_starts p)) by (simpl; rewrite starts_length; lia).
  destruct (nth_error (all_starts p) (nls p)) as [x|] eqn:E; [|apply nth_error_None in E; lia].
  destruct (all_split _ _ E) as (b & m & -> & -> & Hb & Hl). rewrite nls_app in Hb.
  assert (Hm : nls m = 0) by lia. exists b. rewrite last_line_app, Hl by auto. cbn [app]. split; [auto|]. split; [auto|].
  split; [rewrite nls_app; lia|]. split; auto.
Qed.

Lemma nth_error_firstn {A} (l : list A) i k : i < k -> nth_error (firstn k l) i = nth_error l i.
Proof. revert i k; induction l as [|x l IH]; intros [|i] [|k] H; simpl; auto; try lia. apply IH; lia. Qed.

Lemma to_lsp_spec s t pos p : inv s t -> text_before s pos p ->
  exists t', to_lsp s t pos = Some (t', lsp_position p) /\ inv s t' /\
             nls p < length (line_starts t') /\ (complete t' = true \/ pos < last (line_starts t') 0).
Proof.
  intros Hi Hp. destruct (line_index_spec Hi Hp) as (t' & E & Hi' & Hlt & Hl). exists t'. unfold to_lsp. rewrite E.
  destruct (last_line_split p) as (b & Eb & Hz & Hnb & _ & Hx). destruct Hp as (q & Es & Hpos).
  assert (Hn : nth_error (line_starts t') (nls p) = Some (bytes_len b)).
  { destruct Hi' as (k & Hk & Ht & _). rewrite Ht in *. rewrite firstn_length in Hlt.
    rewrite nth_error_firstn by lia. unfold all_starts. rewrite Es, starts_app.
    change (nth_error (all_starts p ++ starts (0 + bytes_len p) q) (nls p) = Some (bytes_len b)).
    rewrite nth_error_app1; auto. apply nth_error_Some. rewrite Hx; discriminate. }
  rewrite Hn. assert (Hs : slice (bytes_len b) pos s = Some (last_line p)).
  { rewrite Es, <- Hpos. rewrite Eb at 1 2. rewrite <- app_assoc. apply slice_app. }
  rewrite Hs. auto.
Qed.

(** ** From editor positions to offsets *)
Lemma utf16_cons c l : utf16_len (c :: l) = len_utf16 c + utf16_len l.
Proof. reflexivity. Qed.
Lemma walk_spec l : forall i cur ch q, utf16_len l + cur = ch ->
  walk i cur ch (l ++ q) = match q with [] => None | _ :: _ => Some (i + bytes_len l) end.
Proof.
  induction l as [|c l IH]; intros i cur ch q H; cbn [app].
  - change (utf16_len []) with 0 in H. destruct q as [|c q]; auto. cbn [walk]. pose proof (len_utf16_pos c).
    destruct (Nat.ltb_spec ch (cur + len_utf16 c)); [f_equal; change (bytes_len []) with 0; lia|lia].
  - cbn [walk]. rewrite utf16_cons in H. destruct (Nat.ltb_spec ch (cur + len_utf16 c)).
    + pose proof (len_utf16_pos c). lia.
    + rewrite IH by lia. rewrite bytes_cons. destruct q; auto. f_equal; lia.
Qed.

(** The line boundaries as seen by a translator that has reached line [line]. *)
Lemma to_ticc_spec s t p pos : inv s t -> text_before s pos p ->
  exists t', to_ticc s t (fst (lsp_position p)) (snd (lsp_position p)) = Some (t', pos) /\ inv s t'.
Proof.
  intros Hi (q & Es & Hpos). unfold to_ticc. cbn [fst snd lsp_position].
  fold (nls p).
  destruct (@scan_inv (fun t => length (line_starts t) <=? nls p) s (scan_fuel s) t Hi) as (t' & -> & Hi' & Hc).
  { unfold scan_fuel. lia. }
  exists t'. destruct (last_line_split p) as (b & Eb & Hz & Hnb & _ & Hx).
  assert (Hall : all_starts s = all_starts p ++ starts (bytes_len p) q) by (unfold all_starts; rewrite Es, starts_app; auto).
  assert (Hlp : length (all_starts p) = S (nls p)) by (simpl; rewrite starts_length; auto).
  assert (Hlt : nls p < length (line_starts t')).
  { destruct Hc as [Hc|Hc]; [|apply Nat.leb_gt in Hc; auto].
    destruct Hi' as (k & Hk & Hl & Hcc). rewrite (Hcc Hc), Hall, app_length. lia. }
  assert (Hk : exists k, line_starts t' = firstn (S k) (all_starts s) /\ nls p <= k).
  { destruct Hi' as (k & Hk & Hl & Hcc). exists k. split; auto. rewrite Hl, firstn_length in Hlt. lia. }
  destruct Hk as (k & Hl & Hle).
  assert (Hn : nth_error (line_starts t') (nls p) = Some (bytes_len b)).
  { rewrite Hl, nth_error_firstn by lia. rewrite Hall, nth_error_app1 by lia. auto. }
  rewrite Hn.
  set (nxt := nth_error (line_starts t') (nls p + 1)).
  set (le := match nxt with Some n => n - 1 | None => bytes_len s end).
  (* the end of the line as used: at or after [pos], with no newline in between when known *)
  assert (Hle' : exists m q', q = m ++ q' /\ le = bytes_len (p ++ m)).
  { unfold le. destruct nxt as [x|] eqn:En; unfold nxt in En.
    - assert (En' : nth_error (all_starts s) (nls p + 1) = Some x).
      { rewrite <- En, Hl. symmetry. apply nth_error_firstn.
        assert (nls p + 1 < length (line_starts t')) by (apply nth_error_Some; congruence).
        rewrite Hl, firstn_length in H. lia. }
      rewrite Hall, nth_error_app2 in En' by lia. rewrite Hlp in En'. replace (nls p + 1 - S (nls p)) with 0 in En' by lia.
      pose proof (find_nl_spec q 0) as Hf. destruct (find_nl 0 q).
      + destruct Hf as (m & r & -> & Hm & _). rewrite starts_app in En'.
        pose proof (starts_length m (bytes_len p)) as Hzz. rewrite Hm in Hzz. destruct (starts (bytes_len p) m); [|discriminate].
        cbn [app starts] in En'. change (newline =? newline)%N with true in En'. change (len_utf8 newline) with 1 in En'. cbn [nth_error] in En'. injection En' as <-. exists m, (newline :: r). split; auto. rewrite bytes_app. lia.
      + pose proof (starts_length q (bytes_len p)) as Hzz. rewrite Hf in Hzz. destruct (starts (bytes_len p) q); discriminate.
    - exists q, []. rewrite app_nil_r, Es. auto. }
  destruct Hle' as (m & q' & -> & ->).
  assert (Hs : slice (bytes_len b) (bytes_len (p ++ m)) s = Some (last_line p ++ m)).
  { rewrite Es. rewrite Eb at 1 2. rewrite <- !app_assoc.
    replace (b ++ last_line p ++ m ++ q') with (b ++ (last_line p ++ m) ++ q') by (rewrite <- !app_assoc; auto).
    apply slice_app. }
  rewrite Hs, walk_spec by lia. rewrite Eb in Hpos. rewrite bytes_app in Hpos.
  destruct m as [|c m].
  - rewrite app_nil_r. rewrite Eb at 1. rewrite bytes_app. split; auto. do 2 f_equal. lia.
  - split; auto. do 2 f_equal. lia.
Qed.

(** Totality and preservation of the invariant for arbitrary positions. *)
Lemma to_ticc_inv s t line ch t' r : inv s t -> to_ticc s t line ch = Some (t', r) -> inv s t'.
Proof.
  intros Hi. unfold to_ticc.
  destruct (@scan_inv (fun t => length (line_starts t) <=? line) s (scan_fuel s) t Hi) as (u & -> & Hi' & _).
  { unfold scan_fuel; lia. }
  intros H. destruct (nth_error (line_starts u) line); [|destruct (nth_error _ (line + 1)); [discriminate|injection H as <- <-; auto]].
  destruct (slice _ _ s); [|discriminate]. destruct (walk _ _ _ _); injection H as <- <-; auto.
Qed.
Lemma to_lsp_inv s t pos t' r : inv s t -> to_lsp s t pos = Some (t', r) -> inv s t'.
Proof.
  intros Hi. unfold to_lsp, line_index.
  destruct (@scan_inv (fun t => last (line_starts t) 0 <=? pos) s (scan_fuel s) t Hi) as (u & -> & Hi' & _).
  { unfold scan_fuel; lia. }
  destruct (nth_error _ _); [|discriminate]. destruct (slice _ _ _); [|discriminate]. intros H; injection H as <- <-; auto.
Qed.
Lemma session_inv s qs : forall t t', inv s t -> session s t qs = Some t' -> inv s t'.
Proof.
  induction qs as [|q qs IH]; intros t t' Hi H; simpl in H; [injection H as <-; auto|].
  destruct (ask s t q) as [u|] eqn:E; [|discriminate]. eapply IH; [|exact H].
  destruct q; simpl in E.
  - destruct (to_lsp s t pos) as [[u' r]|] eqn:E2; [|discriminate]. injection E as <-. eapply to_lsp_inv; eauto.
  - destruct (to_ticc s t line character) as [[u' r]|] eqn:E2; [|discriminate]. injection E as <-. eapply to_ticc_inv; eauto.
Qed.

(** [to_ticc] never panics and always answers with a character boundary. *)
Lemma walk_boundary l : forall i cur ch j, walk i cur ch l = Some j -> exists a b, l = a ++ b /\ j = i + bytes_len a.
Proof.
  induction l as [|c l IH]; intros i cur ch j H; simpl in H; [discriminate|].
  destruct (_ <? _).
  - injection H as <-. exists [], (c :: l). split; auto; simpl; lia.
  - destruct (IH _ _ _ _ H) as (a & b & -> & ->). exists (c :: a), b. rewrite bytes_cons. split; auto. lia.
Qed.
Lemma to_ticc_total s t line ch : inv s t -> exists t' pos p, to_ticc s t line ch = Some (t', pos) /\ text_before s pos p.
Proof.
  intros Hi. unfold to_ticc.
  destruct (@scan_inv (fun t => length (line_starts t) <=? line) s (scan_fuel s) t Hi) as (u & -> & Hi' & _).
  { unfold scan_fuel; lia. }
  destruct Hi' as (k & Hk & Hl & _).
  assert (Hgo : forall i x, nth_error (line_starts u) i = Some x -> nth_error (all_starts s) i = Some x /\ i <= k).
  { intros i x H. assert (Hlt : i < length (line_starts u)) by (apply nth_error_Some; congruence).
    rewrite Hl, firstn_length in Hlt. split; [|lia]. rewrite <- H, Hl. symmetry; apply nth_error_firstn. lia. }
  destruct (nth_error (line_starts u) line) as [x|] eqn:E1.
  - destruct (Hgo _ _ E1) as [E1' _]. destruct (all_split _ _ E1') as (b & q & Es & -> & Hnb & _).
    set (le := match nth_error (line_starts u) (line + 1) with Some n => n - 1 | None => bytes_len s end).
    assert (Hle : exists m q', q = m ++ q' /\ le = bytes_len (b ++ m)).
    { unfold le. destruct (nth_error (line_starts u) (line + 1)) as [x'|] eqn:E2.
      - destruct (Hgo _ _ E2) as [E2' _]. unfold all_starts in E2'. rewrite Es, starts_app in E2'.
        change (nth_error (all_starts b ++ starts (bytes_len b) q) (line + 1) = Some x') in E2'.
        assert (Hlb : length (all_starts b) = S line) by (simpl; rewrite starts_length; auto).
        rewrite nth_error_app2 in E2' by lia. rewrite Hlb in E2'. replace (line + 1 - S line) with 0 in E2' by lia.
        pose proof (find_nl_spec q 0) as Hf. destruct (find_nl 0 q).
        + destruct Hf as (m & r & -> & Hm & _). rewrite starts_app in E2'.
          pose proof (starts_length m (bytes_len b)) as Hzz. rewrite Hm in Hzz. destruct (starts (bytes_len b) m); [|discriminate].
          cbn [app starts] in E2'. change (newline =? newline)%N with true in E2'. change (len_utf8 newline) with 1 in E2'. cbn [nth_error] in E2'. injection E2' as <-. exists m, (newline :: r). split; auto. rewrite bytes_app. lia.
        + pose proof (starts_length q (bytes_len b)) as Hzz. rewrite Hf in Hzz. destruct (starts (bytes_len b) q); discriminate.
      - exists q, []. rewrite app_nil_r, Es. auto. }
    destruct Hle as (m & q' & -> & ->).
    assert (Hs : slice (bytes_len b) (bytes_len (b ++ m)) s = Some m) by (rewrite Es; apply slice_app).
    rewrite Hs. destruct (walk 0 0 ch m) as [i|] eqn:Ew.
    + destruct (walk_boundary _ _ _ _ Ew) as (a & c & -> & ->). exists u, (bytes_len b + (0 + bytes_len a)), (b ++ a).
      split; auto. exists (c ++ q'). rewrite Es, <- !app_assoc, bytes_app. auto.
    + exists u, (bytes_len (b ++ m)), (b ++ m). split; auto. exists q'. rewrite Es, <- app_assoc. auto.
  - destruct (nth_error (line_starts u) (line + 1)) eqn:E2.
    + apply nth_error_None in E1. assert (line + 1 < length (line_starts u)) by (apply nth_error_Some; congruence). lia.
    + exists u, (bytes_len s), s. split; auto. exists []. rewrite app_nil_r; auto.
Qed.

(** ** Round trip *)
Lemma round_trip s qs t pos p : session s for_source qs = Some t -> text_before s pos p ->
  exists t1 line ch, to_lsp s t pos = Some (t1, (line, ch)) /\
    forall qs' t2, session s for_source qs' = Some t2 ->
      exists t3, to_ticc s t2 line ch = Some (t3, pos).
Proof.
  intros Hs Hp. pose proof (@session_inv s _ _ _ (inv_init s) Hs) as Hi.
  destruct (to_lsp_spec Hi Hp) as (t1 & E & _). exists t1, (fst (lsp_position p)), (snd (lsp_position p)).
  split; [exact E|]. intros qs' t2 Hs'. pose proof (@session_inv s _ _ _ (inv_init s) Hs') as Hi'.
  destruct (to_ticc_spec Hi' Hp) as (t3 & E3 & _). eauto.
Qed.

Lemma to_lsp_position s qs t pos p : session s for_source qs = Some t -> text_before s pos p ->
  exists t1, to_lsp s t pos = Some (t1, lsp_position p).
Proof.
  intros Hs Hp. destruct (to_lsp_spec (@session_inv s _ _ _ (inv_init s) Hs) Hp) as (t1 & E & _). eauto.
Qed.
Lemma to_ticc_position s qs t pos p : session s for_source qs = Some t -> text_before s pos p ->
  exists t1, to_ticc s t (fst (lsp_position p)) (snd (lsp_position p)) = Some (t1, pos).
Proof.
  intros Hs Hp. destruct (to_ticc_spec (@session_inv s _ _ _ (inv_init s) Hs) Hp) as (t1 & E & _). eauto.
Qed.
Lemma to_ticc_never_panics s qs t line ch : session s for_source qs = Some t ->
  exists t1 pos p, to_ticc s t line ch = Some (t1, pos) /\ text_before s pos p.
Proof. intros Hs. apply to_ticc_total. eapply session_inv; [apply inv_init|eauto]. Qed.

(** ** Semantic tokens *)
Lemma advance_spec m : forall p, fold_left advance m (lsp_position p) = lsp_position (p ++ m).
Proof.
  induction m as [|c m IH]; intros p; cbn [fold_left]; [rewrite app_nil_r; auto|].
  assert (E : advance (lsp_position p) c = lsp_position (p ++ [c])).
  { unfold advance, lsp_position. cbn [fst snd]. fold (nls p) (nls (p ++ [c])). rewrite nls_app.
    destruct (N.eqb_spec c newline) as [->|Hc].
    - f_equal; [change (nls [newline]) with 1; lia|].
      enough (last_line (p ++ [newline]) = []) as -> by auto.
      induction p as [|d p IHp]; auto. simpl. rewrite existsb_app. simpl. rewrite orb_true_r. auto.
    - assert (Hz : nls [c] = 0) by (unfold nls; simpl; destruct (N.eq_dec c newline); congruence).
      rewrite Hz, last_line_app, utf16_app, utf16_cons by auto. change (utf16_len []) with 0. f_equal; lia. }
  rewrite E, IH, <- app_assoc. auto.
Qed.

Lemma utf16_last_line_mono p m : nls (p ++ m) = nls p -> utf16_len (last_line p) <= utf16_len (last_line (p ++ m)).
Proof. intros H. rewrite nls_app in H. rewrite last_line_app by lia. rewrite utf16_app. lia. Qed.

(** Tokens in source order, each a range of [s] at character boundaries: [ps] gives for each token the
    text before it and its own text. *)
Inductive ordered (s : list char) : list char -> list (nat * nat * nat) -> list (list char * list char) -> Prop :=
| ord_nil p0 : ordered s p0 [] []
| ord_cons p0 p txt q k ts ps :
    s = p ++ txt ++ q -> (exists m, p = p0 ++ m) -> ordered s p ts ps ->
    ordered s p0 ((bytes_len p, bytes_len (p ++ txt), k) :: ts) ((p, txt) :: ps).

Lemma sem_tokens_spec s p0 ts ps : ordered s p0 ts ps -> (exists q0, s = p0 ++ q0) ->
  exists out, sem_tokens s (lsp_position p0) (lsp_position p0) (bytes_len p0) ts = Some out /\
    decode_tokens (lsp_position p0) out =
    map (fun '((p, txt), (_, _, k)) => (lsp_position p, utf16_len txt, k)) (combine ps ts).
Proof.
  induction 1 as [p0|p0 p txt q k ts ps Hs [m ->] Ho IH]; intros [q0 E0].
  - exists []. auto.
  - cbn [sem_tokens]. assert (H1 : slice (bytes_len p0) (bytes_len (p0 ++ m)) s = Some m).
    { rewrite Hs, <- app_assoc. apply slice_app. }
    assert (H2 : slice (bytes_len (p0 ++ m)) (bytes_len ((p0 ++ m) ++ txt)) s = Some txt).
    { rewrite Hs. apply slice_app. }
    rewrite H1, H2, advance_spec. destruct IH as (out & Eo & Ed); [rewrite Hs; eauto|].
    cbn [fst snd lsp_position]. fold (nls p0) (nls (p0 ++ m)).
    assert (Hn : nls p0 <= nls (p0 ++ m)) by (rewrite nls_app; lia).
    unfold sub_chk at 1. rewrite (proj2 (Nat.leb_le _ _)) by auto.
    unfold sub_chk.
    set (base := if nls (p0 ++ m) - nls p0 =? 0 then utf16_len (last_line p0) else 0).
    assert (Hb : base <= utf16_len (last_line (p0 ++ m))).
    { unfold base. destruct (Nat.eqb_spec (nls (p0 ++ m) - nls p0) 0); [|lia]. apply utf16_last_line_mono. lia. }
    rewrite (proj2 (Nat.leb_le _ _) Hb).
    change (nls (p0 ++ m), utf16_len (last_line (p0 ++ m))) with (lsp_position (p0 ++ m)). rewrite Eo.
    eexists; split; [reflexivity|]. cbn [decode_tokens delta_line delta_start st_length st_type combine map].
    assert (Ep : (nls p0 + (nls (p0 ++ m) - nls p0),
        if nls (p0 ++ m) - nls p0 =? 0 then utf16_len (last_line p0) + (utf16_len (last_line (p0 ++ m)) - base)
        else utf16_len (last_line (p0 ++ m)) - base) = lsp_position (p0 ++ m)).
    { unfold lsp_position. fold (nls (p0 ++ m)). unfold base in *. f_equal; [lia|]. destruct (_ =? 0); lia. }
    cbn [fst snd lsp_position]. fold (nls p0). unfold lsp_position at 1 2 in Ed. fold (nls (p0 ++ m)) in Ed.
    rewrite Ep. f_equal. unfold lsp_position at 1. fold (nls (p0 ++ m)). exact Ed.
Qed.

Lemma semantic_tokens_spec s ts ps : ordered s [] ts ps ->
  exists out, get_semantic_tokens s ts = Some out /\
    decode_tokens (0, 0) out =
    map (fun '((p, txt), (_, _, k)) => (lsp_position p, utf16_len txt, k)) (combine ps ts).
Proof. intros H. apply (sem_tokens_spec H). exists s; auto. Qed.

(** ** Clamping when the whole text has been scanned *)
Lemma walk_past l : forall i cur ch, utf16_len l + cur <= ch -> walk i cur ch l = None.
Proof.
  induction l as [|c l IH]; intros i cur ch H; cbn [walk]; auto. rewrite utf16_cons in H.
  destruct (Nat.ltb_spec ch (cur + len_utf16 c)); [lia|]. apply IH; lia.
Qed.
Lemma clamp_complete s t p q ch : inv s t -> complete t = true ->
  s = p ++ q -> (q = [] \/ exists r, q = newline :: r) -> utf16_len (last_line p) <= ch ->
  exists t', to_ticc s t (nls p) ch = Some (t', bytes_len p).
Proof.
  intros (k & Hk & Hl & Hc) C Es Hq Hch. specialize (Hc C). exists t. unfold to_ticc.
  assert (Hscan : scan (scan_fuel s) (fun t => length (line_starts t) <=? nls p) s t = Some t).
  { unfold scan_fuel. rewrite Nat.add_comm. simpl. rewrite C. auto. }
  rewrite Hscan, Hc. destruct (last_line_split p) as (b & Eb & Hz & Hnb & _ & Hx).
  assert (Hall : all_starts s = all_starts p ++ starts (bytes_len p) q) by (unfold all_starts; rewrite Es, starts_app; auto).
  assert (Hlp : length (all_starts p) = S (nls p)) by (simpl; rewrite starts_length; auto).
  rewrite Hall, nth_error_app1, Hx by lia. rewrite nth_error_app2, Hlp by lia.
  replace (nls p + 1 - S (nls p)) with 0 by lia.
  assert (Hend : match nth_error (starts (bytes_len p) q) 0 with Some n => n - 1 | None => bytes_len s end = bytes_len p).
  { destruct Hq as [->|[r ->]].
    - rewrite Es, app_nil_r. auto.
    - cbn [starts]. change (newline =? newline)%N with true. change (len_utf8 newline) with 1. cbn [nth_error]. lia. }
  rewrite Hend. assert (Hs : slice (bytes_len b) (bytes_len p) s = Some (last_line p)).
  { rewrite Es. rewrite Eb at 1 2. rewrite <- app_assoc. apply slice_app. }
  rewrite Hs, walk_past by lia. auto.
Qed.
Lemma clamp_complete_session s qs t p q ch : session s for_source qs = Some t -> complete t = true ->
  s = p ++ q -> (q = [] \/ exists r, q = newline :: r) -> utf16_len (last_line p) <= ch ->
  exists t', to_ticc s t (fst (lsp_position p)) ch = Some (t', bytes_len p).
Proof. intros Hs. apply clamp_complete. eapply session_inv; [apply inv_init|eauto]. Qed.

Lemma lsp_position_inj s p p' off off' : text_before s off p -> text_before s off' p' ->
  lsp_position p = lsp_position p' -> off = off'.
Proof.
  intros H H' E. destruct (@to_ticc_position s [] for_source off p eq_refl H) as (t1 & E1).
  destruct (@to_ticc_position s [] for_source off' p' eq_refl H') as (t2 & E2). rewrite E in E1. congruence.
Qed.
