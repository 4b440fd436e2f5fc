(** std/string.tic meets its specification. *)
From Verif Require Import StdTac StdList.
Set Implicit Arguments.

Lemma char_at_nth n s : str_char_at n s = nth (N.to_nat n) s 0%N.
Proof.
  unfold str_char_at. destruct (nth_error s (N.to_nat n)) eqn:E; [symmetry; apply nth_error_nth; auto|].
  apply nth_error_None in E. rewrite nth_overflow; auto.
Qed.
Lemma substring_eq n k s : str_substring n k s = firstn (N.to_nat k) (skipn (N.to_nat n) s).
Proof.
  unfold str_substring, get_to, get_from, str_len. destruct (N.leb_spec n (N.of_nat (length s))).
  - destruct (N.leb_spec k (N.of_nat (length (skipn (N.to_nat n) s)))); auto. rewrite firstn_all2; auto. lia.
  - rewrite (skipn_all2 s) by lia. cbn [length]. rewrite firstn_nil. destruct (k <=? _)%N; auto using firstn_nil.
Qed.
Lemma intercalate_grow {A} (sep : list A) l x y : intercalate sep (l ++ [x ++ y]) = intercalate sep (l ++ [x]) ++ y.
Proof.
  induction l as [|a l IH]; auto. cbn [app]. destruct l as [|b l].
  - cbn. rewrite <- !app_assoc. auto.
  - change (a ++ sep ++ intercalate sep ((b :: l) ++ [x ++ y]) = (a ++ sep ++ intercalate sep ((b :: l) ++ [x])) ++ y). rewrite IH, <- !app_assoc. auto.
Qed.
Lemma intercalate_snoc_nil {A} (sep : list A) l x : intercalate sep ((l ++ [x]) ++ [[]]) = intercalate sep (l ++ [x]) ++ sep.
Proof.
  induction l as [|a l IH]; cbn [app]; [cbn; rewrite app_nil_r; auto|]. destruct l as [|b l].
  - cbn. rewrite app_nil_r, <- !app_assoc. auto.
  - change (a ++ sep ++ intercalate sep (((b :: l) ++ [x]) ++ [[]]) = (a ++ sep ++ intercalate sep ((b :: l) ++ [x])) ++ sep). rewrite IH, <- !app_assoc. auto.
Qed.
Lemma parts_grow c s l x y : parts_of c s (l ++ [x]) -> y <> c -> parts_of c (s ++ [y]) (l ++ [x ++ [y]]).
Proof.
  intros (H1 & H2 & H3) Hy. split; [destruct l; discriminate|]. split; [rewrite intercalate_grow, H2; auto|].
  intros p Hp. apply in_app_or in Hp. destruct Hp as [Hp|[<-|[]]]; [apply H3, in_or_app; auto|]. intros Hc. apply in_app_or in Hc.
  destruct Hc as [Hc|[Hc|[]]]; [|auto]. apply (H3 x); auto. apply in_or_app. right. left. auto.
Qed.
Lemma parts_next c s l x : parts_of c s (l ++ [x]) -> parts_of c (s ++ [c]) ((l ++ [x]) ++ [[]]).
Proof.
  intros (H1 & H2 & H3). split; [destruct l; discriminate|]. split; [rewrite intercalate_snoc_nil, H2; auto|].
  intros p Hp. apply in_app_or in Hp. destruct Hp as [Hp|[<-|[]]]; auto.
Qed.
Lemma firstn_snoc {A} (s : list A) d k : k < length s -> firstn (S k) s = firstn k s ++ [nth k s d].
Proof. revert k. induction s as [|x s IH]; cbn [length]; intros k H; [lia|]. destruct k; auto. cbn [firstn nth app]. f_equal. apply IH. lia. Qed.
Lemma nth_skipn {A} (s : list A) d a k : nth k (skipn a s) d = nth (a + k) s d.
Proof. revert a. induction s as [|x s IH]; intros a; [rewrite skipn_nil; rewrite !nth_overflow by (cbn; lia); auto|]. destruct a; auto. cbn [skipn]. rewrite IH. auto. Qed.
Lemma skipn_S {A} (s : list A) i : skipn (S i) s = tl (skipn i s).
Proof. revert i. induction s as [|x s IH]; intros i; [rewrite skipn_nil; destruct i; auto|]. destruct i; auto. cbn [skipn]. rewrite <- IH. auto. Qed.
Lemma slice_snoc {A} (s : list A) d a k : a <= k -> k < length s -> firstn (S k - a) (skipn a s) = firstn (k - a) (skipn a s) ++ [nth k s d].
Proof.
  intros H1 H2. replace (S k - a) with (S (k - a)) by lia. rewrite (@firstn_snoc _ _ d) by (rewrite skipn_length; lia). f_equal. f_equal.
  rewrite nth_skipn. f_equal. lia.
Qed.

Lemma strip_cr_eq line : (N.of_nat (length line) < W64)%N -> let pos := wrap (N.of_nat (length line) + (W64 - 1)) in
  strip_cr line = if N.eqb (nth (N.to_nat pos) line 0%N) 13 then firstn (N.to_nat pos) line else line.
Proof.
  intros Hll. destruct line as [|x line _] using rev_ind.
  - cbn [length]. rewrite nth_overflow by (cbn; lia). reflexivity.
  - unfold strip_cr. rewrite rev_app_distr. cbn [rev app]. rewrite wrap_sub by (rewrite ?app_length in *; cbn [length] in *; lia).
    assert (EL : N.to_nat (N.of_nat (length (line ++ [x])) - 1) = length line) by (rewrite app_length; cbn; lia). cbn zeta. rewrite EL in *.
    rewrite app_nth2, Nat.sub_diag by lia. cbn [nth]. rewrite firstn_app, firstn_all, Nat.sub_diag, app_nil_r. rewrite rev_involutive. auto.
Qed.

(** The scan of [split] and [lines]: where the current part starts, where the scan is, the parts before, latest first. *)
Section Scan.
  Variables (c : N) (s : bytes) (g : bytes -> bytes).
  Definition scan (st : N * N * list bytes) : N * N * list bytes :=
    match st with
    | (a, k, r) =>
      if N.eqb (nth (N.to_nat k) s 0%N) c
      then (wrap (k + 1), wrap (k + 1), g (firstn (N.to_nat (wrap (k + (W64 - a)))) (skipn (N.to_nat a) s)) :: r)
      else (a, wrap (k + 1), r)
    end.
  Lemma scan_ok : short s -> forall k, k <= length s -> exists a first, a <= k /\
    Nat.iter k scan (0%N, 0%N, []) = (N.of_nat a, N.of_nat k, map g (rev first)) /\
    parts_of c (firstn k s) (first ++ [firstn (k - a) (skipn a s)]).
  Proof.
    intros Hs. unfold short in Hs. change (2 ^ 64)%N with W64 in Hs. induction k as [|k IH]; intros Hk.
    - exists 0, []. split; auto. split; auto. cbn. split; [discriminate|]. split; auto. intros p [<-|[]] [].
    - destruct IH as (a & first & Ha & E & HP); [lia|].
      change (Nat.iter (S k) scan (0%N, 0%N, [])) with (scan (Nat.iter k scan (0%N, 0%N, []))). rewrite E. cbn [scan]. rewrite Nat2N.id.
      rewrite (@wrap_small (N.of_nat k + 1)%N) by lia. rewrite wrap_sub by lia. replace (N.of_nat k + 1)%N with (N.of_nat (S k)) by lia.
      rewrite (@firstn_snoc _ s 0%N) by lia. destruct (N.eqb_spec (nth k s 0%N) c) as [->|Hn].
      + exists (S k), (first ++ [firstn (k - a) (skipn a s)]). split; auto. split.
        * rewrite rev_app_distr. cbn [rev app map]. rewrite !Nat2N.id. f_equal. f_equal. f_equal. f_equal. lia.
        * rewrite Nat.sub_diag. cbn [firstn]. apply parts_next. auto.
      + exists a, first. split; [lia|]. split; auto. rewrite (@slice_snoc _ s 0%N) by lia. apply parts_grow; auto.
  Qed.
End Scan.

Section Str.
  Variable o : order.
  Variable tys : stypes.
  Notation evals := (evals o tys).
  Notation call := (call o tys).
  Notation calls := (calls o tys).
  Hypothesis HT : lookup list_List tys = Some list_tbl.
  Variable en : senv.
  Hypothesis Hnil : lookup list_Nil en = Some wnil.
  Hypothesis Hcons : lookup list_Cons en = Some (WCtor list_Cons 2 []).
  Hypothesis Hiter : lookup intrinsics_iterate en = Some (WIter []).
  Hypothesis Hslen : lookup intrinsics_stringLength en = Some (WOp StringLen []).
  Hypothesis Hsconcat : lookup intrinsics_stringConcat en = Some (WOp StringConcat []).
  Hypothesis Hscharat : lookup intrinsics_stringCharAt en = Some (WOp StringCharAt []).
  Hypothesis Hssub : lookup intrinsics_stringSubstring en = Some (WOp StringSubstring []).
  Hypothesis Hsfrom : lookup intrinsics_stringFromChar en = Some (WOp StringFromChar []).
  Hypothesis Hsplit : lookup string_SplitState2 en = Some (WCtor string_SplitState2 3 []).
  Hypothesis Hfold : lookup string_FoldState2 en = Some (WCtor string_FoldState2 2 []).
  Hypothesis Hcmp : lookup string_Comparing en = Some (WCtor string_Comparing 1 []).
  Hypothesis Huneq : lookup string_Unequal en = Some (WCon false string_Unequal []).
  Hypothesis Hts : lookup string_TrimStart en = Some (WCtor string_TrimStart 1 []).
  Hypothesis Htd : lookup string_TrimDone en = Some (WCtor string_TrimDone 1 []).

  Lemma string_length_ok : exists v, evals en e_string_length v /\ string_length_spec o tys v.
  Proof. start. intros s. apply calls1. ap. Qed.
  Lemma string_concat_ok : exists v, evals en e_string_concat v /\ string_concat_spec o tys v.
  Proof. start. intros a b. eapply calls2; ap. Qed.
  Lemma string_charAt_ok : exists v, evals en e_string_charAt v /\ string_charAt_spec o tys v.
  Proof. start. intros n s. rewrite <- char_at_nth. eapply calls2; ap. Qed.
  Lemma string_substring_ok : exists v, evals en e_string_substring v /\ string_substring_spec o tys v.
  Proof. start. intros n k s. rewrite <- substring_eq. eapply calls3; ap. Qed.
  Lemma string_fromChar_ok : exists v, evals en e_string_fromChar v /\ string_fromChar_spec o tys v.
  Proof. start. intros c. apply calls1. ap. Qed.
  Lemma string_newline_ok vf : lookup string_fromChar en = Some vf -> string_fromChar_spec o tys vf -> exists v, evals en e_string_newline v /\ string_newline_spec v.
  Proof. intros H1 H2. specialize (H2 10%N). ex. start. reflexivity. Qed.

  Variables vl vc vs vr : sval.
  Hypothesis Hl : lookup string_length en = Some vl.
  Hypothesis HL : string_length_spec o tys vl.
  Hypothesis Hc : lookup string_charAt en = Some vc.
  Hypothesis HC : string_charAt_spec o tys vc.
  Hypothesis Hs : lookup string_substring en = Some vs.
  Hypothesis HS : string_substring_spec o tys vs.
  Hypothesis Hr : lookup list_reverse en = Some vr.
  Hypothesis HR : list_reverse_spec o tys vr.
  Definition rep_scan (st : N * N * list bytes) : sval :=
    match st with (a, k, r) => WCon false string_SplitState2 [WInt a; WInt k; of_strings r] end.

  Lemma slice_call a s : a <= length s -> short s -> calls vs [WInt (N.of_nat a); WInt (wrap (N.of_nat (length s) + (W64 - N.of_nat a))); WStr s] (WStr (firstn (length s - a) (skipn a s))).
  Proof.
    intros Ha Hlen. unfold short in Hlen. change (2 ^ 64)%N with W64 in Hlen. rewrite wrap_sub by lia.
    assert (H := HS (N.of_nat a) (N.of_nat (length s) - N.of_nat a)%N s). rewrite Nat2N.id in H.
    replace (N.to_nat (N.of_nat (length s) - N.of_nat a)) with (length s - a) in H by lia. auto.
  Qed.

  Lemma string_split_ok : exists v, evals en e_string_split v /\ string_split_spec o tys v.
  Proof.
    start. intros c s Hlen. destruct (@scan_ok c s (fun x => x) Hlen (length s) (le_n _)) as (a & first & Ha & E & HP).
    rewrite firstn_all in HP. eexists. split; [exact HP|]. eapply calls2; [ap|]. apply app_fun. eapply ev_let; [ev|].
    match goal with |- evals ((_, ?g) :: _) _ _ => assert (G : forall st, call g (rep_scan st) (rep_scan (scan c s (fun x => x) st))) end.
    { intros [[i k] r]. unfold rep_scan, scan. assert (H1 := HC k s). assert (H2 := HS i (wrap (k + (W64 - i))) s). ex. ap.
      destruct (N.eqb (nth (N.to_nat k) s 0%N) c); cbn [of_strings map of_list fold_right]; ev. }
    match goal with |- evals ((_, ?g) :: _) _ _ =>
      assert (HI := @app_iter o tys (N.of_nat (length s)) g _ _ Hlen (@iters_fun o tys _ g rep_scan (scan c s (fun x => x)) G (N.to_nat (N.of_nat (length s))) (0%N, 0%N, []))) end.
    rewrite Nat2N.id, E, map_id in HI. cbn [rep_scan of_strings map of_list fold_right] in HI.
    assert (H1 := HL s). assert (H2 := @slice_call a s Ha Hlen).
    assert (H3 := HR (map WStr (firstn (length s - a) (skipn a s) :: rev first))).
    rewrite <- map_rev in H3. cbn [rev] in H3. rewrite rev_involutive in H3. cbn [map of_list fold_right] in H3. ex. clear G HP E.
    ev.
  Qed.

  Lemma string_lines_ok : exists v, evals en e_string_lines v /\ string_lines_spec o tys v.
  Proof.
    start. intros s Hlen. destruct (@scan_ok 10%N s strip_cr Hlen (length s) (le_n _)) as (a & first & Ha & E & HP).
    rewrite firstn_all in HP. eexists _, _. split; [exact HP|]. apply calls1. apply app_fun. eapply ev_let; [ev|].
    match goal with |- evals ((_, ?g) :: _) _ _ => assert (GX : forall a k, exists g', call g (WInt a) g' /\ call g' (WInt k) (WStr (strip_cr (firstn (N.to_nat k) (skipn (N.to_nat a) s))))) end.
    { intros i k. eexists. split; [ap|]. set (line := firstn (N.to_nat k) (skipn (N.to_nat i) s)).
      assert (Hll : (N.of_nat (length line) < W64)%N).
      { unfold short in Hlen. change (2 ^ 64)%N with W64 in Hlen. unfold line. rewrite firstn_length, skipn_length. lia. }
      assert (H1 := HS i k s). fold line in H1. assert (H2 := HL line). assert (H3 := HC (wrap (N.of_nat (length line) + (W64 - 1))) line).
      assert (H4 := HS 0%N (wrap (N.of_nat (length line) + (W64 - 1))) line).
      rewrite (@strip_cr_eq line Hll). set (pos := wrap (N.of_nat (length line) + (W64 - 1))) in *. change (skipn (N.to_nat 0) line) with line in H4.
      ex. clearbody line. ap; change (wrap (N.of_nat (length line) + (W64 - 1))) with pos; destruct (N.eqb (nth (N.to_nat pos) line 0%N) 13); ev. }
    eapply ev_let; [ev|].
    match goal with |- evals ((_, ?g) :: _) _ _ => assert (G : forall st, call g (rep_scan st) (rep_scan (scan 10%N s strip_cr st))) end.
    { intros [[i k] r]. unfold rep_scan, scan. assert (H1 := HC k s). destruct (GX i (wrap (k + (W64 - i)))) as (g' & H2 & H3). ex. ap.
      destruct (N.eqb (nth (N.to_nat k) s 0%N) 10); cbn [of_strings map of_list fold_right]; ev. }
    match goal with |- evals ((_, ?g) :: _) _ _ =>
      assert (HI := @app_iter o tys (N.of_nat (length s)) g _ _ Hlen (@iters_fun o tys _ g rep_scan (scan 10%N s strip_cr) G (N.to_nat (N.of_nat (length s))) (0%N, 0%N, []))) end.
    rewrite Nat2N.id, E in HI. cbn [rep_scan of_strings map of_list fold_right] in HI.
    assert (H1 := HL s). assert (H2 := @slice_call a s Ha Hlen).
    assert (H3 := HR (map WStr (map strip_cr (rev first)))). assert (H4 := HR (map WStr (firstn (length s - a) (skipn a s) :: map strip_cr (rev first)))).
    rewrite <- map_rev, <- (map_rev strip_cr), rev_involutive in H3. rewrite <- map_rev in H4. cbn [rev] in H4. rewrite <- (map_rev strip_cr), rev_involutive in H4.
    cbn [map of_list fold_right] in H3, H4. ex. clear G GX E. ev.
    destruct (N.eqb_spec (N.of_nat a) (N.of_nat (length s))) as [Ea|Ea].
    - replace a with (length s) by lia. rewrite Nat.sub_diag. cbn [firstn]. rewrite app_nil_r. ev.
    - assert (Hne : firstn (length s - a) (skipn a s) <> []).
      { intros Hx. apply (f_equal (@length N)) in Hx. rewrite firstn_length, skipn_length in Hx. cbn in Hx. lia. }
      destruct (firstn (length s - a) (skipn a s)) as [|x l]; [congruence|]. ev.
  Qed.
  Lemma folds_left_fun {A} (f : sval) (rep : A -> sval) (h : A -> N -> A) (s : bytes) : (forall acc c, In c s -> calls f [rep acc; WInt c] (rep (h acc c))) ->
    forall acc, folds_left o tys f (rep acc) (map WInt s) (rep (fold_left h s acc)).
  Proof.
    induction s as [|c s IH]; intros H acc; cbn [map fold_left folds_left]; auto. exists (rep (h acc c)). split; [apply H; left; auto|].
    apply IH. intros. apply H. right. auto.
  Qed.
  Lemma string_foldChars_ok : exists v, evals en e_string_foldChars v /\ string_foldChars_spec o tys v.
  Proof.
    start. intros f init s r Hlen HF. eapply calls3; [ap|ap|]. apply app_fun. eapply ev_let; [ev|].
    match goal with |- evals ((_, ?g) :: _) _ _ => assert (G : forall l i acc, skipn i s = l -> folds_left o tys f acc (map WInt l) r ->
       iters o tys g (length l) (WCon false string_FoldState2 [WInt (N.of_nat i); acc]) (WCon false string_FoldState2 [WInt (N.of_nat (i + length l)); r])) end.
    { induction l as [|c l IH]; intros i acc El Hf.
      - cbn in Hf. subst r. rewrite Nat.add_0_r. constructor.
      - destruct Hf as (w & Hw & Hf). cbn [length]. assert (Hi : i < length s) by (apply (f_equal (@length N)) in El; rewrite skipn_length in El; cbn in El; lia).
        assert (Ec : nth i s 0%N = c) by (rewrite <- (Nat.add_0_r i), <- nth_skipn, El; auto).
        assert (H1 := HC (N.of_nat i) s). rewrite Nat2N.id, Ec in H1. ex.
        apply it_S with (y := WCon false string_FoldState2 [WInt (N.of_nat (S i)); w]).
        + replace (N.of_nat (S i)) with (wrap (N.of_nat i + 1)); [ap|]. unfold short in Hlen. change (2 ^ 64)%N with W64 in Hlen. rewrite wrap_small; lia.
        + replace (i + S (length l)) with (S i + length l) by lia. apply IH; auto. rewrite skipn_S, El. auto. }
    specialize (G s 0 init eq_refl HF). match goal with |- evals ((_, ?g) :: _) _ _ => assert (HI := @app_iter o tys (N.of_nat (length s)) g _ _ Hlen ltac:(rewrite Nat2N.id; exact G)) end.
    assert (H1 := HL s). ex. ev.
  Qed.
  Lemma string_equal_ok : exists v, evals en e_string_equal v /\ string_equal_spec o tys v.
  Proof.
    start. intros a b Ha Hb. exists (if list_eq_dec N.eq_dec a b then true else false). split; [|destruct (list_eq_dec N.eq_dec a b); intuition discriminate].
    assert (H1 := HL a). assert (H2 := HL b). ex. eapply calls2; [ap|]. ap.
    destruct (N.eqb_spec (N.of_nat (length a)) (N.of_nat (length b))) as [El|El]; cbn [negb].
    2: { destruct (list_eq_dec N.eq_dec a b) as [->|]; [congruence|ev]. }
    eapply ev_let; [ev|].
    pose (rep := fun x : option N => match x with Some i => WCon false string_Comparing [WInt i] | None => WCon false string_Unequal [] end).
    pose (st := fun x : option N => match x with Some i => if N.eqb (nth (N.to_nat i) a 0%N) (nth (N.to_nat i) b 0%N) then Some (wrap (i + 1)) else None | None => None end).
    match goal with |- evals ((_, ?g) :: _) _ _ => assert (G : forall x, call g (rep x) (rep (st x))) end.
    { intros [i|]; unfold rep, st; [|ap]. assert (H1 := HC i a). assert (H2 := HC i b). ex. ap. destruct (N.eqb (nth (N.to_nat i) a 0%N) _); ev. }
    match goal with |- evals ((_, ?g) :: _) _ _ =>
      assert (HI := @app_iter o tys (N.of_nat (length a)) g _ _ Ha (@iters_fun o tys _ g rep st G (N.to_nat (N.of_nat (length a))) (Some 0%N))) end.
    assert (E : forall k, k <= length a -> Nat.iter k st (Some 0%N) = if list_eq_dec N.eq_dec (firstn k a) (firstn k b) then Some (N.of_nat k) else None).
    { induction k as [|k IH]; intros Hk; auto. change (Nat.iter (S k) st (Some 0%N)) with (st (Nat.iter k st (Some 0%N))). rewrite IH by lia.
      rewrite (@firstn_snoc _ a 0%N), (@firstn_snoc _ b 0%N) by lia. unfold short in Ha. change (2 ^ 64)%N with W64 in Ha.
      destruct (list_eq_dec N.eq_dec (firstn k a) (firstn k b)) as [E|E]; cbn [st].
      - rewrite Nat2N.id. destruct (N.eqb_spec (nth k a 0%N) (nth k b 0%N)) as [E2|E2]; destruct (list_eq_dec _ _) as [E3|E3]; try congruence.
        + rewrite wrap_small by lia. f_equal. lia.
        + apply app_inj_tail in E3. destruct E3. congruence.
      - destruct (list_eq_dec _ _) as [E3|E3]; auto. apply app_inj_tail in E3. destruct E3. congruence. }
    rewrite Nat2N.id, E in HI by lia. rewrite firstn_all, (firstn_all2 b) in HI by lia.
    destruct (list_eq_dec N.eq_dec a b); cbn [rep] in HI; ev.
  Qed.
  Variables ve vf : sval.
  Hypothesis He : lookup string_equal en = Some ve.
  Hypothesis HE : string_equal_spec o tys ve.
  Hypothesis Hf : lookup string_foldChars en = Some vf.
  Hypothesis HF : string_foldChars_spec o tys vf.
  Lemma string_startsWith_ok : exists v, evals en e_string_startsWith v /\ string_startsWith_spec o tys v.
  Proof.
    start. intros p s Hlen. assert (H1 := HL p). assert (H2 := HL s). unfold short in Hlen.
    destruct (Nat.ltb (length s) (length p)) eqn:Hcmp'.
    - apply Nat.ltb_lt in Hcmp'. exists false. split.
      + ex. eapply calls2; [ap|]. ap. replace (N.of_nat (length s) <? N.of_nat (length p))%N with true by (symmetry; apply N.ltb_lt; lia). ev.
      + split; [discriminate|]. intros [r ->]. rewrite app_length in Hcmp'. lia.
    - apply Nat.ltb_ge in Hcmp'. destruct (@HE (firstn (length p) s) p) as (t & Ht & Hiff); unfold short; [rewrite firstn_length; lia|lia|].
      exists t. assert (H3 := HS 0%N (N.of_nat (length p)) s). rewrite Nat2N.id in H3. cbn [N.to_nat skipn] in H3. split.
      + ex. eapply calls2; [ap|]. ap. replace (N.of_nat (length s) <? N.of_nat (length p))%N with false by (symmetry; apply N.ltb_ge; lia). ev.
      + rewrite Hiff. split; [intros E; exists (skipn (length p) s); rewrite <- E at 1; symmetry; apply firstn_skipn|].
        intros [r ->]. rewrite firstn_app, firstn_all, Nat.sub_diag. cbn. apply app_nil_r.
  Qed.
  Lemma string_chars_ok : exists v, evals en e_string_chars v /\ string_chars_spec o tys v.
  Proof.
    start. intros s Hlen. apply calls1. apply app_fun.
    match goal with |- context [SLam ?x1 [] _ (SLam ?x2 [] ?t2 ?b)] =>
      pose (F := WFun ((string_chars_s, WStr s) :: en) x1 (SLam x2 [] t2 b)) end.
    assert (G : forall acc c, In c s -> calls F [of_ints acc; WInt c] (of_ints (c :: acc))) by (intros; unfold F; eapply calls2; cbn [of_ints map of_list fold_right]; ap).
    assert (H1 := @HF F (of_ints []) s _ Hlen (@folds_left_fun _ F of_ints (fun l c => c :: l) s G [])). unfold F in H1.
    assert (H2 := HR (map WInt (fold_left (fun l c => c :: l) s []))). rewrite <- map_rev in H2.
    assert (E : forall l acc, rev (fold_left (fun l (c : N) => c :: l) l acc) = rev acc ++ l).
    { induction l as [|x l IH]; intros acc; cbn [fold_left]; [rewrite app_nil_r; auto|]. rewrite IH. cbn [rev]. rewrite <- app_assoc. auto. }
    rewrite E in H2. cbn [rev app] in H2. ex. ev.
  Qed.
  Lemma trailing_spec s : (N.of_nat (length s) < W64)%N -> exists m t, fold_left (fun acc c => if N.eqb c 32 then wrap (acc + 1) else 0)%N s 0%N = N.of_nat t /\
    s = m ++ repeat 32%N t /\ forall r, m <> r ++ [32%N].
  Proof.
    induction s as [|x s IH] using rev_ind; intros H.
    - exists [], 0. split; auto. split; auto. intros [|] E; discriminate.
    - rewrite app_length in H. cbn [length] in H. destruct IH as (m & t & E1 & E2 & E3); [lia|]. rewrite fold_left_app. cbn [fold_left]. rewrite E1.
      assert (t <= length s) by (rewrite E2, app_length, repeat_length; lia). destruct (N.eqb_spec x 32) as [->|Hx].
      + exists m, (S t). split; [rewrite wrap_small by lia; lia|]. split; auto. rewrite E2 at 1. rewrite <- app_assoc, <- repeat_cons. auto.
      + exists (s ++ [x]), 0. split; auto. split; [rewrite app_nil_r; auto|]. intros r E. apply app_inj_tail in E. destruct E. auto.
  Qed.
  Definition lead (st : bool * N) (c : N) : bool * N := if fst st then if N.eqb c 32 then (true, wrap (snd st + 1)) else (false, snd st) else st.
  Lemma leading_spec s : forall x, (x + N.of_nat (length s) < W64)%N -> exists m t, snd (fold_left lead s (true, x)) = (x + N.of_nat t)%N /\
    s = repeat 32%N t ++ m /\ forall r, m <> 32%N :: r.
  Proof.
    induction s as [|c s IH]; intros x H.
    - exists [], 0. cbn. split; [lia|]. split; auto. discriminate.
    - cbn [length] in H. cbn [fold_left]. unfold lead at 2. cbn [fst snd]. destruct (N.eqb_spec c 32) as [->|Hne].
      + rewrite wrap_small by lia. destruct (IH (x + 1)%N) as (m & t & E1 & E2 & E3); [lia|]. exists m, (S t). split; [rewrite E1; lia|]. split; auto. cbn. congruence.
      + exists (c :: s), 0. split; [|split; auto; intros r E; congruence].
        assert (E : forall l, fold_left lead l (false, x) = (false, x)) by (induction l; auto). rewrite E. cbn. lia.
  Qed.
  Lemma string_trim_ok : exists v, evals en e_string_trim v /\ string_trim_spec o tys v.
  Proof.
    start. intros s Hlen. unfold short in Hlen. change (2 ^ 64)%N with W64 in Hlen.
    destruct (@trailing_spec s Hlen) as (m & t & E1 & E2 & E3).
    assert (Hm : length m + t = length s) by (rewrite E2, app_length, repeat_length; auto).
    destruct (@leading_spec m 0%N ltac:(lia)) as (m' & l & L1 & L2 & L3). rewrite N.add_0_l in L1.
    assert (Hm' : l + length m' = length m) by (rewrite L2, app_length, repeat_length; auto).
    exists l, t, m'. split; [rewrite E2, L2, <- app_assoc; auto|]. split; auto. split; [intros r ->; apply (E3 (repeat 32%N l ++ r)); rewrite L2, <- app_assoc; auto|].
    match goal with |- context [(string_trim_trailingSpaces, ?g)] => assert (GT : call g (WStr s) (WInt (N.of_nat t))) end.
    { apply app_fun. match goal with |- context [SLam ?x1 [] _ (SLam ?x2 [] ?t2 ?b)] =>
      pose (F := WFun ((string_trim_s, WStr s) :: en) x1 (SLam x2 [] t2 b)) end.
      assert (G : forall acc c, In c s -> calls F [WInt acc; WInt c] (WInt (if N.eqb c 32 then wrap (acc + 1) else 0)%N)) by
        (intros acc c _; unfold F; eapply calls2; [ap|]; ap; destruct (N.eqb c 32); ev).
      assert (H1 := @HF F (WInt 0) s _ Hlen (@folds_left_fun _ F WInt (fun acc c => if N.eqb c 32 then wrap (acc + 1) else 0)%N s G 0%N)). unfold F in H1.
      rewrite E1 in H1. ex. ev. }
    match goal with |- context [(string_trim_leadingSpaces, ?g)] => assert (GL : call g (WStr m) (WInt (N.of_nat l))) end.
    { apply app_fun. pose (rep := fun st : bool * N => WCon false (if fst st then string_TrimStart else string_TrimDone) [WInt (snd st)]).
      match goal with |- context [(string_trim_addChar, ?g)] => pose (F := g); assert (G : forall st c, In c m -> calls F [rep st; WInt c] (rep (lead st c))) end.
      { intros [[|] n] c _; unfold rep, lead, F; cbn [fst snd]; (eapply calls2; [ap|]; ap). destruct (N.eqb c 32); ev. }
      assert (H1 := @HF F (rep (true, 0%N)) m _ ltac:(unfold short; change (2 ^ 64)%N with W64; lia) (@folds_left_fun _ F rep lead m G (true, 0%N))). unfold F in H1.
      unfold rep in H1. rewrite L1 in H1. cbn [fst snd] in H1. destruct (fold_left lead m (true, 0%N)) as [[|] n] eqn:En; cbn [fst] in H1; ex; ev. }
    assert (H1 := HL s). assert (H2 := HL m).
    assert (H3 : calls vs [WInt 0; WInt (wrap (N.of_nat (length s) + (W64 - N.of_nat t))); WStr s] (WStr m)).
    { assert (H := HS 0%N (N.of_nat (length s) - N.of_nat t)%N s). rewrite wrap_sub by lia. replace (N.to_nat (N.of_nat (length s) - N.of_nat t)) with (length m) in H by lia.
      cbn [N.to_nat skipn] in H. rewrite E2 in H at 3. rewrite firstn_app, firstn_all, Nat.sub_diag in H. cbn [firstn] in H. rewrite app_nil_r in H. auto. }
    assert (H4 := @slice_call l m ltac:(lia) ltac:(unfold short; change (2 ^ 64)%N with W64; lia)).
    assert (E4 : firstn (length m - l) (skipn l m) = m').
    { rewrite L2. rewrite skipn_app, repeat_length, Nat.sub_diag. rewrite (skipn_all2 (repeat 32%N l)) by (rewrite repeat_length; lia). cbn [app skipn].
      apply firstn_all2. rewrite app_length, repeat_length. lia. }
    rewrite E4 in H4. apply calls1. ex. ap.
  Qed.
End Str.
