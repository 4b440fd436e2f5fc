(** The lexer meets its specification. *)
From Verif Require Import Lexer LexerSpec.
Set Implicit Arguments.

Lemma chars_eqb_eq a : forall b, chars_eqb a b = true <-> a = b.
Proof.
  induction a as [|x a IH]; intros [|y b]; cbn; split; try congruence; auto.
  - intros H. apply andb_true_iff in H as [H1 H2]. apply N.eqb_eq in H1. apply IH in H2. congruence.
  - intros E. injection E as -> ->. rewrite N.eqb_refl. apply IH. auto.
Qed.
Lemma starts_iff p s : starts p s = true <-> exists r, s = p ++ r.
Proof.
  unfold starts. rewrite chars_eqb_eq. split.
  - intros H. exists (skipn (length p) s). rewrite H at 1. symmetry. apply firstn_skipn.
  - intros [r ->]. rewrite firstn_app, Nat.sub_diag, firstn_all, firstn_O, app_nil_r. auto.
Qed.

Lemma span_len_le p s : span_len p s <= length s.
Proof. induction s; cbn; auto. destruct (p a); lia. Qed.
Lemma span_len_all p s : Forall (fun c => p c = true) (firstn (span_len p s) s).
Proof. induction s as [|c s IH]; cbn; auto. destruct (p c) eqn:E; cbn; auto. Qed.
Lemma span_len_max p a : forall b, Forall (fun c => p c = true) a -> length a <= span_len p (a ++ b).
Proof. induction a as [|c a IH]; intros b H; cbn; [lia|]. inversion H; subst. rewrite H2. specialize (IH b H3). lia. Qed.

Lemma string_len_ok s : forall n, string_len s = Some n ->
  exists m r, s = m ++ 34%N :: r /\ n = S (length m) /\ Forall (fun d => d <> 34 /\ d <> 10 /\ d <> 92)%N m.
Proof.
  induction s as [|c s IH]; intros n E; cbn in E; [discriminate|].
  destruct (N.eqb_spec c 34) as [->|H1]; [injection E as <-; exists [], s; cbn; repeat split; auto; constructor|].
  destruct (N.eqb_spec c 10) as [->|H2]; [discriminate|]. destruct (N.eqb_spec c 92) as [->|H3]; [discriminate|]. cbn in E.
  destruct (string_len s) as [n'|]; [|discriminate]. injection E as <-. destruct (IH _ eq_refl) as (m & r & -> & -> & Hm).
  exists (c :: m), r. cbn. repeat split; auto.
Qed.
Lemma string_len_some m : forall r, Forall (fun d => d <> 34 /\ d <> 10 /\ d <> 92)%N m ->
  string_len (m ++ 34%N :: r) = Some (S (length m)).
Proof.
  induction m as [|c m IH]; intros r H; cbn; auto. inversion H as [|? ? (A & B & C) Hm]; subst.
  apply N.eqb_neq in A, B, C. rewrite A, B, C. cbn. rewrite IH; auto.
Qed.

Lemma find_kw_some w l k : find_kw w l = Some k -> In (w, k) l.
Proof.
  induction l as [|[t k'] l IH]; cbn; [discriminate|]. destruct (chars_eqb t w) eqn:E; auto.
  intros H. injection H as ->. apply chars_eqb_eq in E. subst; auto.
Qed.
Lemma find_kw_none w l : find_kw w l = None -> forall k, ~ In (w, k) l.
Proof.
  induction l as [|[t k'] l IH]; cbn; [tauto|]. destruct (chars_eqb t w) eqn:E; [discriminate|].
  intros H k [H'|H']; [|eapply IH; eauto]. injection H' as -> ->. rewrite (proj2 (chars_eqb_eq w w) eq_refl) in E. discriminate.
Qed.

Lemma best_symbol_ok l s : match best_symbol l s with
  | Some (n, k) => (exists t, In (t, k) l /\ starts t s = true /\ n = length t) /\
                   (forall t k', In (t, k') l -> starts t s = true -> length t <= n)
  | None => forall t k', In (t, k') l -> starts t s = false end.
Proof.
  induction l as [|[t k] l IH]; cbn [best_symbol In]; [tauto|]. destruct (best_symbol l s) as [[n k']|].
  - destruct IH as [(t0 & A & B & C) D]. destruct (starts t s && (n <? length t)) eqn:E.
    + apply andb_true_iff in E as [E1 E2]. apply Nat.ltb_lt in E2. split; [exists t; auto|].
      intros t' k'' [H|H] Hs; [injection H as <- <-; auto|]. specialize (D _ _ H Hs). lia.
    + split; [exists t0; auto|]. intros t' k'' [H|H] Hs; [|eapply D; eauto]. injection H as <- <-.
      rewrite Hs in E. cbn in E. apply Nat.ltb_ge in E. auto.
  - destruct (starts t s) eqn:E.
    + split; [exists t; auto|]. intros t' k'' [H|H] Hs; [injection H as <- <-; auto|]. rewrite (IH _ _ H) in Hs. discriminate.
    + intros t' k'' [H|H]; [injection H as <- <-; auto|eauto].
Qed.

(** Facts about the two tables, by computation. *)
Definition table_ok (p : list char -> kind -> bool) (l : list (list char * kind)) : bool := forallb (fun e => p (fst e) (snd e)) l.
Lemma table_all p l : table_ok p l = true -> forall t k, In (t, k) l -> p t k = true.
Proof. intros H t k Hin. unfold table_ok in H. rewrite forallb_forall in H. apply (H (t, k) Hin). Qed.
Definition kw_shape (t : list char) (k : kind) : bool :=
  match t with c :: r => is_alpha c && forallb is_word r && is_keyword k | [] => false end.
Lemma kw_table : forall t k, In (t, k) keywords -> kw_shape t k = true.
Proof. apply table_all. vm_compute. reflexivity. Qed.
Definition plain (k : kind) : bool :=
  match k with KName | KHole | KNumber | KString | KSpace | KNewline | KComment | KError => false | _ => true end.
Definition sym_shape (t : list char) (k : kind) : bool :=
  match t with
  | c :: r => negb (is_alpha c) && negb (is_digit c) && negb (N.eqb c 63) && negb (N.eqb c 34) && negb (N.eqb c 32)
              && negb (N.eqb c 10) && negb (N.eqb c 13) && plain k && negb (is_keyword k)
              && (length t <=? 2) && negb (chars_eqb t [45; 45]%N)
  | [] => false end.
Lemma sym_table : forall t k, In (t, k) symbols -> sym_shape t k = true.
Proof. apply table_all. vm_compute. reflexivity. Qed.
Lemma kw_plain : forall k, is_keyword k = true -> plain k = true.
Proof. destruct k; auto. Qed.
Definition uniq (l : list (list char * kind)) : bool :=
  forallb (fun e => forallb (fun e' => negb (chars_eqb (fst e) (fst e')) || keqb (snd e) (snd e')) l) l.
Lemma uniq_ok l : uniq l = true -> forall t k k', In (t, k) l -> In (t, k') l -> k = k'.
Proof.
  intros H t k k' H1 H2. unfold uniq in H. rewrite forallb_forall in H. specialize (H _ H1). cbn in H.
  rewrite forallb_forall in H. specialize (H _ H2). cbn in H. rewrite (proj2 (chars_eqb_eq t t) eq_refl) in H. cbn in H.
  unfold keqb in H. destruct (kind_eq_dec k k'); auto. discriminate.
Qed.
Lemma kw_uniq t k k' : In (t, k) keywords -> In (t, k') keywords -> k = k'.
Proof. apply uniq_ok. vm_compute. reflexivity. Qed.
Lemma sym_uniq t k k' : In (t, k) symbols -> In (t, k') symbols -> k = k'.
Proof. apply uniq_ok. vm_compute. reflexivity. Qed.

Lemma matches_plain k t : plain k = true -> (matches k t <-> In (t, k) keywords \/ In (t, k) symbols).
Proof. destruct k; cbn; try discriminate; tauto. Qed.

Lemma alpha_facts c : is_alpha c = true -> is_digit c = false /\ c <> 63%N /\ c <> 34%N /\ c <> 32%N /\ c <> 10%N /\ c <> 13%N /\ c <> 45%N.
Proof.
  unfold is_alpha, is_digit, chr_range. intros H. rewrite !orb_true_iff, !andb_true_iff, !N.leb_le, N.eqb_eq in H.
  rewrite andb_false_iff, !N.leb_gt. lia.
Qed.
Lemma digit_facts c : is_digit c = true -> is_alpha c = false /\ c <> 63%N /\ c <> 34%N /\ c <> 32%N /\ c <> 10%N /\ c <> 13%N /\ c <> 45%N.
Proof.
  unfold is_digit, chr_range. intros H. rewrite !andb_true_iff, !N.leb_le in H.
  split; [|lia]. destruct (is_alpha c) eqn:E; auto. apply alpha_facts in E as [E _]. unfold is_digit, chr_range in E.
  rewrite andb_false_iff, !N.leb_gt in E. lia.
Qed.

(** The first character decides which patterns are possible. *)
Inductive matched (c : char) (t : list char) : kind -> Prop :=
| m_word k : is_alpha c = true -> Forall (fun d => is_word d = true) t ->
    (In (c :: t, k) keywords \/ k = KName) -> matched c t k
| m_number : is_digit c = true -> Forall (fun d => is_word d = true) t -> matched c t KNumber
| m_hole : c = 63%N -> t <> [] -> Forall (fun d => is_word d = true) t -> matched c t KHole
| m_string m : c = 34%N -> t = m ++ [34%N] -> Forall (fun d => d <> 34 /\ d <> 10 /\ d <> 92)%N m -> matched c t KString
| m_space : c = 32%N -> Forall (fun d => d = 32%N) t -> matched c t KSpace
| m_nl : c = 10%N -> t = [] -> matched c t KNewline
| m_crnl : c = 13%N -> t = [10%N] -> matched c t KNewline
| m_comment r : c = 45%N -> t = 45%N :: r -> Forall (fun d => d <> 10%N) r -> matched c t KComment
| m_symbol k : In (c :: t, k) symbols -> matched c t k.

Lemma matches_first k t : matches k t <-> exists c r, t = c :: r /\ matched c r k.
Proof.
  split.
  - intros H. destruct (plain k) eqn:Ep.
    + apply (matches_plain _ _ Ep) in H as [H|H].
      * pose proof (kw_table H) as Hs. destruct t as [|c r]; [discriminate|]. exists c, r. split; auto.
        cbn in Hs. apply andb_true_iff in Hs as [Hs _]. apply andb_true_iff in Hs as [Ha Hw].
        apply m_word; auto. apply Forall_forall. rewrite forallb_forall in Hw. auto.
      * pose proof (sym_table H) as Hs. destruct t as [|c r]; [discriminate|]. exists c, r. split; auto. apply m_symbol; auto.
    + destruct k; try discriminate; cbn in H.
      * destruct H as (c & r & -> & Ha & Hr). exists c, r. split; auto. apply m_word; auto.
      * destruct H as (c & r & -> & Hr). exists 63%N, (c :: r). split; auto. apply m_hole; auto. discriminate.
      * destruct H as (c & r & -> & Ha & Hr). exists c, r. split; auto. apply m_number; auto.
      * destruct H as (m & -> & Hm). exists 34%N, (m ++ [34%N]). split; auto. eapply m_string; eauto.
      * destruct H as (r & -> & Hr). exists 32%N, r. split; auto. apply m_space; auto.
      * destruct H as [-> | ->]; [exists 10%N, []|exists 13%N, [10%N]]; split; auto; [apply m_nl|apply m_crnl]; auto.
      * destruct H as (r & -> & Hr). exists 45%N, (45%N :: r). split; auto. eapply m_comment; eauto.
      * destruct H.
  - intros (c & r & -> & H). inversion H; subst.
    + destruct H2 as [H2| ->]; [|cbn; eauto]. pose proof (kw_table H2) as Hs. cbn in Hs.
      apply andb_true_iff in Hs as [_ Hs]. apply (matches_plain _ _ (kw_plain _ Hs)). auto.
    + cbn. eauto.
    + cbn. destruct r as [|x r]; [congruence|]. exists x, r. split; auto.
    + cbn. exists m. auto.
    + cbn. eauto.
    + cbn. auto.
    + cbn. auto.
    + cbn. eauto.
    + pose proof (sym_table H0) as Hs. cbn in Hs. repeat (apply andb_true_iff in Hs as [Hs ?]).
      apply matches_plain; auto.
Qed.

Lemma sym_first c t k : In (c :: t, k) symbols ->
  is_alpha c = false /\ is_digit c = false /\ c <> 63%N /\ c <> 34%N /\ c <> 32%N /\ c <> 10%N /\ c <> 13%N /\
  length (c :: t) <= 2 /\ c :: t <> [45; 45]%N /\ is_keyword k = false.
Proof.
  intros H. pose proof (sym_table H) as Hs. unfold sym_shape in Hs.
  repeat (apply andb_true_iff in Hs as [Hs ?]).
  repeat match goal with H : negb _ = true |- _ => apply negb_true_iff in H end.
  repeat match goal with H : N.eqb _ _ = false |- _ => apply N.eqb_neq in H end.
  apply Nat.leb_le in H1. repeat (split; [assumption|]). split; auto. intros E. apply chars_eqb_eq in E. congruence.
Qed.

(** [scan] is the longest match. *)
Definition scan_ok (s : list char) : Prop :=
  match scan s with
  | Some (n, k) => exists t rest, s = t ++ rest /\ n = length t /\ matches k t /\
      (forall t' rest' k', s = t' ++ rest' -> matches k' t' -> length t' <= length t) /\
      (forall k', matches k' t -> k' = k \/ (k' = KName /\ is_keyword k = true))
  | None => forall t' rest' k', s = t' ++ rest' -> ~ matches k' t'
  end.

Lemma firstn_prefix A n (s : list A) : exists r, s = firstn n s ++ r.
Proof. exists (skipn n s). symmetry. apply firstn_skipn. Qed.
Lemma span_split p s : s = firstn (span_len p s) s ++ skipn (span_len p s) s.
Proof. symmetry. apply firstn_skipn. Qed.

Ltac first_char H :=
  apply matches_first in H; destruct H as (?c0 & ?r0 & -> & H); cbn [app] in *.

Lemma scan_spec s : scan_ok s.
Proof.
  unfold scan_ok. destruct s as [|c r].
  { cbn. intros t' rest' k' E H. first_char H. discriminate. }
  cbn [scan]. destruct (is_alpha c) eqn:Ea.
  - pose proof (alpha_facts _ Ea) as (F1 & F2 & F3 & F4 & F5 & F6 & F7).
    set (n := span_len is_word r). set (w := firstn (S n) (c :: r)).
    assert (Hw : w = c :: firstn n r) by reflexivity.
    assert (Hall : Forall (fun d => is_word d = true) (firstn n r)) by apply span_len_all.
    assert (Hlen : S n = length w) by (rewrite Hw; cbn; rewrite firstn_length; pose proof (span_len_le is_word r); unfold n in *; lia).
    exists w, (skipn n r). split; [rewrite Hw; cbn; f_equal; symmetry; apply firstn_skipn|]. split; auto. split; [|split].
    + destruct (find_kw w keywords) as [k|] eqn:Ek.
      * apply find_kw_some in Ek. apply matches_first. exists c, (firstn n r). split; auto. apply m_word; auto.
      * apply matches_first. exists c, (firstn n r). split; auto. apply m_word; auto.
    + intros t' rest' k' E H. rewrite <- Hlen. first_char H. injection E as <- ->. cbn [length].
      assert (Hr0 : Forall (fun d => is_word d = true) r0).
      { inversion H; subst; auto; try congruence. apply sym_first in H0 as (B & _). congruence. }
      unfold n. pose proof (span_len_max _ rest' Hr0). lia.
    + intros k' H. apply matches_first in H as (c0 & r0 & E & H). rewrite Hw in E. injection E as <- <-.
      inversion H; subst; try congruence.
      * destruct H2 as [H2| ->].
        -- destruct (find_kw w keywords) as [k|] eqn:Ek.
           ++ apply find_kw_some in Ek. left. eapply kw_uniq; eauto.
           ++ exfalso. eapply find_kw_none; eauto.
        -- destruct (find_kw w keywords) as [k|] eqn:Ek; auto. right. split; auto. apply find_kw_some, kw_table in Ek.
           rewrite Hw in Ek. cbn in Ek. apply andb_true_iff in Ek as [_ Ek]. auto.
      * apply sym_first in H0 as (B & _). congruence.
  - destruct (is_digit c) eqn:Ed.
    + pose proof (digit_facts _ Ed) as (F1 & F2 & F3 & F4 & F5 & F6 & F7).
      set (n := span_len is_word r).
      assert (Hall : Forall (fun d => is_word d = true) (firstn n r)) by apply span_len_all.
      exists (c :: firstn n r), (skipn n r). split; [cbn; f_equal; symmetry; apply firstn_skipn|].
      split; [cbn; rewrite firstn_length; pose proof (span_len_le is_word r); unfold n in *; lia|].
      split; [apply matches_first; exists c, (firstn n r); split; auto; apply m_number; auto|]. split.
      * intros t' rest' k' E H. cbn [length]. rewrite firstn_length, Nat.min_l by apply span_len_le. first_char H. injection E as <- ->. cbn [length].
        assert (Hr0 : Forall (fun d => is_word d = true) r0).
        { inversion H; subst; auto; try congruence. apply sym_first in H0 as (_ & B & _). congruence. }
        unfold n. pose proof (span_len_max _ rest' Hr0). lia.
      * intros k' H. apply matches_first in H as (c0 & r0 & E & H). injection E as <- <-.
        inversion H; subst; try congruence; auto. apply sym_first in H0 as (_ & B & _). congruence.
    + destruct (N.eqb_spec c 63) as [->|N63].
      { destruct (span_len is_word r) as [|n] eqn:En.
        - intros t' rest' k' E H. first_char H. injection E as <- ->. inversion H; subst; try discriminate.
          + pose proof (span_len_max _ rest' H2). destruct r0; [congruence|]. rewrite En in H3. cbn in H3. lia.
          + apply sym_first in H0. tauto.
        - set (w := firstn (S n) r). assert (Hall : Forall (fun d => is_word d = true) w) by (unfold w; rewrite <- En; apply span_len_all).
          pose proof (span_len_le is_word r) as Hle. rewrite En in Hle.
          exists (63%N :: w), (skipn (S n) r). split; [change (63%N :: r = 63%N :: (w ++ skipn (S n) r)); f_equal; symmetry; apply firstn_skipn|].
          assert (Hl : length w = S n) by (unfold w; rewrite firstn_length; lia).
          split; [change (S (S n) = S (length w)); lia|].
          assert (Hne : w <> []) by (intros E; rewrite E in Hl; discriminate).
          split; [apply matches_first; exists 63%N, w; split; auto; apply m_hole; auto|]. split.
          + intros t' rest' k' E H. cbn [length]. first_char H. injection E as <- ->. cbn [length].
            assert (Hr0 : Forall (fun d => is_word d = true) r0).
            { inversion H; subst; auto; try discriminate. apply sym_first in H0. tauto. }
            pose proof (span_len_max _ rest' Hr0). lia.
          + intros k' H. apply matches_first in H as (c0 & r0 & E & H). injection E as <- <-.
            inversion H; subst; try discriminate; auto. apply sym_first in H0. tauto. }
      destruct (N.eqb_spec c 34) as [->|N34].
      { destruct (string_len r) as [n|] eqn:En.
        - destruct (string_len_ok _ En) as (m & r' & -> & -> & Hm).
          exists (34%N :: m ++ [34%N]), r'. split; [cbn; rewrite <- app_assoc; auto|].
          split; [cbn; rewrite app_length; cbn; lia|].
          split; [cbn; eauto|]. split.
          + intros t' rest' k' E H. first_char H. injection E as <- E. inversion H; subst; try discriminate.
            * rewrite <- app_assoc in E. cbn in E.
              pose proof (string_len_some rest' H2) as S2. rewrite <- E, (string_len_some r' Hm) in S2. injection S2 as S2.
              cbn. rewrite !app_length. cbn. lia.
            * apply sym_first in H0. tauto.
          + intros k' H. apply matches_first in H as (c0 & r0 & E & H). injection E as <- <-.
            inversion H; subst; try discriminate; auto. apply sym_first in H0. tauto.
        - intros t' rest' k' E H. first_char H. injection E as <- ->. inversion H; subst; try discriminate.
          + rewrite <- app_assoc in En. cbn in En. rewrite (string_len_some rest' H2) in En. discriminate.
          + apply sym_first in H0. tauto. }
      destruct (N.eqb_spec c 32) as [->|N32].
      { set (n := span_len (N.eqb 32) r).
        assert (Hall : Forall (fun d => d = 32%N) (firstn n r)).
        { eapply Forall_impl; [|apply span_len_all]. intros a Ha. apply N.eqb_eq in Ha. auto. }
        exists (32%N :: firstn n r), (skipn n r). split; [cbn; f_equal; symmetry; apply firstn_skipn|].
        split; [cbn; rewrite firstn_length; pose proof (span_len_le (N.eqb 32) r); unfold n in *; lia|].
        split; [cbn; eauto|]. split.
        + intros t' rest' k' E H. cbn [length]. rewrite firstn_length, Nat.min_l by apply span_len_le. first_char H. injection E as <- ->. cbn [length].
          assert (Hr0 : Forall (fun d => N.eqb 32 d = true) r0).
          { inversion H; subst; try discriminate.
            - eapply Forall_impl; [|eassumption]. intros a ->. auto.
            - apply sym_first in H0. tauto. }
          unfold n. pose proof (span_len_max _ rest' Hr0). lia.
        + intros k' H. apply matches_first in H as (c0 & r0 & E & H). injection E as <- <-.
          inversion H; subst; try discriminate; auto. apply sym_first in H0. tauto. }
      destruct (N.eqb_spec c 10) as [->|N10].
      { exists [10%N], r. split; auto. split; auto. split; [cbn; auto|]. split.
        + intros t' rest' k' E H. first_char H. injection E as <- ->. inversion H; subst; try discriminate; auto.
          apply sym_first in H0. tauto.
        + intros k' H. apply matches_first in H as (c0 & r0 & E & H). injection E as <- <-.
          inversion H; subst; try discriminate; auto. apply sym_first in H0. tauto. }
      destruct (N.eqb_spec c 13) as [->|N13].
      { destruct r as [|d r].
        { intros t' rest' k' E H. first_char H. injection E as <- E. inversion H; subst; try discriminate. apply sym_first in H0. tauto. }
        destruct (N.eqb_spec d 10) as [->|Nd].
        - exists [13%N; 10%N], r. split; auto. split; auto. split; [cbn; auto|]. split.
          + intros t' rest' k' E H. first_char H. injection E as <- E. inversion H; subst; try discriminate; auto.
            apply sym_first in H0. tauto.
          + intros k' H. apply matches_first in H as (c0 & r0 & E & H). injection E as <- <-.
            inversion H; subst; try discriminate; auto. apply sym_first in H0. tauto.
        - intros t' rest' k' E H. first_char H. injection E as <- E. inversion H; subst; try discriminate.
          + injection E as ->. congruence.
          + apply sym_first in H0. tauto. }
      assert (Hrest : forall k' r0, matched c r0 k' -> (exists r', c = 45%N /\ r0 = 45%N :: r' /\ k' = KComment /\ Forall (fun d => d <> 10%N) r') \/ In (c :: r0, k') symbols).
      { intros k' r0 H. inversion H; subst; try congruence; eauto 10. }
      destruct (starts [45; 45]%N (c :: r)) eqn:Es.
      { apply starts_iff in Es as (r1 & Er). cbn in Er. injection Er as -> ->. cbn [tl].
        set (p := fun d => negb (N.eqb d 10)). set (n := span_len p r1).
        assert (Hall : Forall (fun d => d <> 10%N) (firstn n r1)).
        { eapply Forall_impl; [|apply span_len_all]. unfold p. cbn. intros a Ha. apply negb_true_iff, N.eqb_neq in Ha. auto. }
        exists (45%N :: 45%N :: firstn n r1), (skipn n r1). split; [cbn; do 2 f_equal; symmetry; apply firstn_skipn|].
        split; [cbn; rewrite firstn_length; pose proof (span_len_le p r1); unfold n in *; lia|].
        split; [cbn; eauto|]. split.
        + intros t' rest' k' E H. cbn [length]. rewrite firstn_length, Nat.min_l by apply span_len_le. first_char H. injection E as <- E.
          apply Hrest in H as [(r' & _ & -> & -> & Hr')|H].
          * cbn in E. injection E as E.
            assert (Hr0 : Forall (fun d => p d = true) r').
            { eapply Forall_impl; [|exact Hr']. intros a Ha. unfold p. apply negb_true_iff, N.eqb_neq. auto. }
            pose proof (span_len_max _ rest' Hr0). unfold n. rewrite E. cbn. lia.
          * apply sym_first in H. cbn in *. lia.
        + intros k' H. apply matches_first in H as (c0 & r0 & E & H). injection E as <- <-.
          apply Hrest in H as [(r' & _ & E & -> & Hr')|H]; auto.
          apply sym_first in H as (_ & _ & _ & _ & _ & _ & _ & Hl & Hn & _).
          destruct (firstn n r1); [congruence|cbn in Hl; lia]. }
      pose proof (best_symbol_ok symbols (c :: r)) as Hb. destruct (best_symbol symbols (c :: r)) as [[n k]|].
      * destruct Hb as [(t & Hin & Hs & ->) Hmax]. apply starts_iff in Hs as (rest & Er).
        exists t, rest. split; auto. split; auto.
        assert (Hm : matches k t).
        { pose proof (sym_table Hin) as Hsh. unfold sym_shape in Hsh. destruct t as [|c1 t]; [discriminate|].
          apply matches_first. exists c1, t. split; auto. apply m_symbol; auto. }
        split; auto. split.
        -- intros t' rest' k' E H. first_char H. injection E as <- E.
           apply Hrest in H as [(r' & -> & -> & _ & _)|H].
           ++ exfalso. cbn in E. subst r. cbn in Es. discriminate.
           ++ eapply Hmax; eauto. apply starts_iff. exists rest'. subst r. auto.
        -- intros k' H. apply matches_first in H as (c0 & r0 & E & H). subst t. cbn in Er. injection Er as <- ->.
           apply Hrest in H as [(r' & -> & -> & _ & _)|H]; [cbn in Es; discriminate|]. left. eapply sym_uniq; eauto.
      * intros t' rest' k' E H. first_char H. injection E as <- E. apply Hrest in H as [(r' & -> & -> & _ & _)|H].
        -- cbn in E. subst r. cbn in Es. discriminate.
        -- assert (Hs : starts (c :: r0) (c :: r) = true) by (apply starts_iff; exists rest'; subst r; auto).
           rewrite (Hb _ _ H) in Hs. discriminate.
Qed.

Lemma matches_ne k t : matches k t -> t <> [].
Proof. intros H. apply matches_first in H as (c & r & -> & _). discriminate. Qed.

Lemma lex_fuel_spec err : forall fuel s, length s <= fuel -> lexes s (lex_fuel err fuel s).
Proof.
  induction fuel as [|fuel IH]; intros s Hl.
  { destruct s; [constructor|cbn in Hl; lia]. }
  destruct s as [|c r]; [constructor|]. cbn [lex_fuel]. pose proof (scan_spec (c :: r)) as H. unfold scan_ok in H.
  destruct (scan (c :: r)) as [[n k]|].
  - destruct H as (t & rest & E & -> & Hm & Hmax & Hk). rewrite E at 2. rewrite E.
    rewrite firstn_app, Nat.sub_diag, firstn_all, firstn_O, app_nil_r.
    rewrite skipn_app, Nat.sub_diag, skipn_all. cbn [skipn app]. rewrite <- E.
    eapply lexes_token; eauto. apply IH. pose proof (matches_ne _ Hm). assert (length t + length rest = length (c :: r)) by (rewrite E, app_length; auto).
    destruct t; [congruence|]. cbn in *. lia.
  - set (n := err_len err (c :: r)). assert (Hn : 1 <= n <= length (c :: r)) by (unfold n, err_len; cbn [length]; lia).
    eapply lexes_error with (rest := skipn n (c :: r)); [symmetry; apply firstn_skipn| |exact H|].
    + intros E. assert (length (firstn n (c :: r)) = n) by (rewrite firstn_length; lia). rewrite E in *. cbn in *. lia.
    + apply IH. rewrite skipn_length. lia.
Qed.

Lemma lex_spec err s : lexes s (lex err s).
Proof. apply lex_fuel_spec. auto. Qed.

Lemma lexes_tile s ts : lexes s ts -> concat (map snd ts) = s /\ Forall (fun t => snd t <> []) ts.
Proof.
  induction 1 as [|s t rest k ts E Hm Hmax Hk H [IH1 IH2]|s t rest ts E Hne Hno H [IH1 IH2]]; cbn.
  - auto.
  - split; [congruence|]. constructor; auto. cbn. eapply matches_ne; eauto.
  - split; [congruence|]. constructor; auto.
Qed.

Lemma lexes_app ts1 : forall s ts2, lexes s (ts1 ++ ts2) -> exists s2, lexes s2 ts2.
Proof.
  induction ts1 as [|t ts1 IH]; intros s ts2 H; cbn in H; [eauto|]. inversion H; subst; eauto.
Qed.

Lemma kw_match t k : In (t, k) keywords -> matches k t /\ matches KName t /\ is_keyword k = true.
Proof.
  intros H. pose proof (kw_table H) as Hs. destruct t as [|c r]; [discriminate|]. cbn in Hs.
  apply andb_true_iff in Hs as [Hs Hk]. apply andb_true_iff in Hs as [Ha Hw].
  assert (Forall (fun d => is_word d = true) r) by (apply Forall_forall; rewrite forallb_forall in Hw; auto).
  split; [|split; auto].
  - apply matches_plain; auto. apply kw_plain; auto.
  - cbn. eauto.
Qed.

Lemma kw_only k t : is_keyword k = true -> matches k t -> In (t, k) keywords.
Proof.
  intros Hk H. apply matches_plain in H; [|apply kw_plain; auto]. destruct H as [H|H]; auto.
  exfalso. destruct t; [apply sym_table in H; discriminate|]. apply sym_first in H. 
  destruct H as (_ & _ & _ & _ & _ & _ & _ & _ & _ & H). congruence.
Qed.

Lemma lexes_words ts1 k t ts2 s : lexes s (ts1 ++ (k, t) :: ts2) -> is_keyword k = true \/ k = KName ->
  match concat (map snd ts2) with c :: _ => is_word c = false | [] => True end /\
  (is_keyword k = true -> In (t, k) keywords) /\
  (k = KName -> forall k', ~ In (t, k') keywords).
Proof.
  intros H Hk. destruct (lexes_app _ _ H) as [s2 H2]. clear H. 
  inversion H2 as [|? ? rest ? ? E Hm Hmax Hu Hl|? ? ? ? E]; subst; [|destruct Hk; discriminate].
  destruct (lexes_tile Hl) as [Ht _]. rewrite Ht. split; [|split].
  - destruct rest as [|c rest]; auto. destruct (is_word c) eqn:Ec; auto. exfalso.
    assert (Hw : matches KName t).
    { destruct Hk as [Hk| ->]; auto. apply (kw_match (kw_only _ _ Hk Hm)). }
    cbn in Hw. destruct Hw as (a & r & -> & Ha & Hr).
    specialize (Hmax (a :: r ++ [c]) rest KName). cbn in Hmax. rewrite <- app_assoc in Hmax. specialize (Hmax eq_refl).
    rewrite app_length in Hmax. cbn in Hmax. assert (S (length r + 1) <= S (length r)); [|lia]. apply Hmax.
    exists a, (r ++ [c]). split; auto. split; auto. apply Forall_app; auto.
  - intros Hkw. apply kw_only; auto.
  - intros -> k' Hin. destruct (kw_match Hin) as (A & _ & B). destruct (Hu _ A) as [->|[-> _]]; discriminate.
Qed.

Lemma lexes_nil_inv ts : lexes [] ts -> ts = [].
Proof.
  intros H. destruct (lexes_tile H) as [A B]. destruct ts as [|[k t] ts]; auto.
  inversion B; subst. cbn in *. apply app_eq_nil in A as [-> _]. congruence.
Qed.
(** Without error tokens the sequence is determined by the source. *)
Lemma lexes_det s ts : lexes s ts -> forall ts', lexes s ts' -> ~ In KError (map fst ts) -> ts = ts'.
Proof.
  induction 1 as [|s t rest k ts E Hm Hmax Hk H IH|s t rest ts E Hne Hno H IH]; intros ts' H' He.
  - symmetry. eapply lexes_nil_inv; eauto.
  - assert (Hd : k <> KError) by (intros ->; destruct Hm).
    inversion H' as [|? t1 rest1 k1 ts1 E1 Hm1 Hmax1 Hk1 H1|? t1 rest1 ts1 E1 Hne1 Hno1 H1]; subst.
    + exfalso. eapply matches_ne; [exact Hm|]. match goal with H : [] = t ++ rest |- _ => symmetry in H; apply app_eq_nil in H; tauto end.
    + assert (Hl : length t = length t1).
      { apply Nat.le_antisymm; [eapply Hmax1; eauto|eapply Hmax; eauto]. }
      pose proof (f_equal (firstn (length t)) E1) as F1. pose proof (f_equal (skipn (length t)) E1) as F2.
      rewrite firstn_app, Nat.sub_diag, firstn_all, firstn_O, app_nil_r in F1.
      rewrite skipn_app, Nat.sub_diag, skipn_all in F2. cbn in F2.
      rewrite Hl in F1, F2. rewrite firstn_app, Nat.sub_diag, firstn_all, firstn_O, app_nil_r in F1.
      rewrite skipn_app, Nat.sub_diag, skipn_all in F2. cbn in F2. subst t1 rest1.
      assert (k = k1) as <-.
      { destruct (Hk _ Hm1) as [->|[-> Ek]]; auto. destruct (Hk1 _ Hm) as [->|[-> Ek1]]; auto. }
      f_equal. apply IH; auto. cbn in He. tauto.
    + exfalso. exact (Hno1 t rest k eq_refl Hm).
  - exfalso. apply He. cbn. auto.
Qed.
