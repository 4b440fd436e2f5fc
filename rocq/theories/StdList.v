(** std/list.tic: each function of the library meets its specification, given that the names it uses are bound
    to values that meet theirs. *)
From Verif Require Import StdTac.
Set Implicit Arguments.

Definition list_tbl : list (sym * list bool) := [(list_Nil, []); (list_Cons, [false; true])].

Lemma mod_W a : wrap a = (a mod 2 ^ 64)%N. Proof. reflexivity. Qed.
Lemma wrap_add_r a b : wrap (a + wrap b) = wrap (a + b).
Proof. unfold wrap. rewrite N.add_mod_idemp_r; auto. unfold W64. lia. Qed.
Lemma wrap_add_l a b : wrap (wrap a + b) = wrap (a + b).
Proof. unfold wrap. rewrite N.add_mod_idemp_l; auto. unfold W64. lia. Qed.
Lemma wrap_mul_r a b : wrap (a * wrap b) = wrap (a * b).
Proof. unfold wrap. rewrite N.mul_mod_idemp_r; auto. unfold W64. lia. Qed.
Lemma wrap_mul_l a b : wrap (wrap a * b) = wrap (a * b).
Proof. unfold wrap. rewrite N.mul_mod_idemp_l; auto. unfold W64. lia. Qed.
Lemma wrap_small a : (a < W64)%N -> wrap a = a.
Proof. apply N.mod_small. Qed.
Lemma wrap_sub a b : (b <= a)%N -> (a < W64)%N -> wrap (a + (W64 - b)) = (a - b)%N.
Proof.
  intros H1 H2. unfold wrap. replace (a + (W64 - b))%N with ((a - b) + 1 * W64)%N by lia. rewrite N.mod_add by (unfold W64; lia). apply N.mod_small. lia.
Qed.

(** Merge sort, as the library does it: the counter bounds the recursion. *)
Section Sort.
  Variable A : Type.
  Variable lt : A -> A -> bool.
  Fixpoint mrg (n : nat) (a b : list A) : list A :=
    match n with
    | O => []
    | S k => match a, b with
             | [], _ => b
             | _, [] => a
             | x :: xs, y :: ys => if lt x y then x :: mrg k xs b else y :: mrg k a ys
             end
    end.
  Definition spl (l : list A) : list A * list A := fold_right (fun x r => (x :: snd r, fst r)) ([], []) l.
  Fixpoint srt (n : nat) (l : list A) : list A :=
    match n with
    | O => []
    | S k => if length l <=? 1 then l else let p := spl l in let a := srt k (fst p) in let b := srt k (snd p) in mrg (length (a ++ b)) a b
    end.
  Lemma mrg_perm n : forall a b, length a + length b <= n -> Permutation (a ++ b) (mrg n a b).
  Proof.
    induction n as [|n IH]; intros a b H.
    - destruct a, b; cbn in H; try lia. constructor.
    - cbn [mrg]. destruct a as [|x a]; [reflexivity|]. destruct b as [|y b]; [rewrite app_nil_r; reflexivity|]. cbn in H.
      destruct (lt x y); [cbn; constructor; apply IH; cbn; lia|]. rewrite <- (Permutation_middle (x :: a)). constructor. apply IH. cbn. lia.
  Qed.
  Lemma mrg_forall P n : forall a b, Forall P a -> Forall P b -> Forall P (mrg n a b).
  Proof.
    induction n as [|n IH]; intros a b Ha Hb; [constructor|]. cbn [mrg]. destruct a as [|x a]; auto. destruct b as [|y b]; auto.
    inversion Ha; inversion Hb; subst. destruct (lt x y); constructor; auto.
  Qed.
  Hypothesis asym : forall x y, lt x y = true -> lt y x = false.
  Hypothesis ntrans : forall x y z, lt x y = false -> lt y z = false -> lt x z = false.
  Notation R := (fun x y => lt y x = false).
  Lemma mrg_sorted n : forall a b, length a + length b <= n -> StronglySorted R a -> StronglySorted R b -> StronglySorted R (mrg n a b).
  Proof.
    induction n as [|n IH]; intros a b H Ha Hb; [constructor|].
    cbn [mrg]. destruct a as [|x a]; auto. destruct b as [|y b]; auto. cbn in H.
    inversion Ha as [|? ? Sa Fa]; inversion Hb as [|? ? Sb Fb]; subst. destruct (lt x y) eqn:E; constructor; try (apply IH; cbn; auto; lia).
    - apply mrg_forall; auto. constructor; auto. revert Fb. apply Forall_impl. intros z Hz. eapply ntrans; eauto.
    - apply mrg_forall; auto. constructor; auto. revert Fa. apply Forall_impl. intros z Hz. eapply ntrans; eauto.
  Qed.
  Lemma spl_perm l : Permutation l (fst (spl l) ++ snd (spl l)).
  Proof. induction l as [|x l IH]; cbn; [constructor|]. constructor. rewrite IH at 1. apply Permutation_app_comm. Qed.
  Lemma spl_len l : length (snd (spl l)) <= length (fst (spl l)) <= S (length (snd (spl l))).
  Proof. induction l as [|x l IH]; cbn; [lia|]. fold (spl l). lia. Qed.
  Lemma srt_ok n : forall l, length l <= n -> Permutation l (srt n l) /\ StronglySorted R (srt n l).
  Proof.
    induction n as [|n IH]; intros l H.
    - destruct l; cbn in H; [|lia]. split; constructor.
    - cbn [srt]. destruct (Nat.leb_spec (length l) 1).
      + split; [reflexivity|]. destruct l as [|x [|y l]]; cbn in *; try lia; repeat constructor.
      + pose proof (spl_perm l) as HP. pose proof (spl_len l) as HL. pose proof (Permutation_length HP) as HL2. rewrite app_length in HL2.
        destruct (IH (fst (spl l))) as [P1 S1]; [lia|]. destruct (IH (snd (spl l))) as [P2 S2]; [lia|]. cbn zeta. rewrite app_length. split.
        * eapply Permutation_trans; [exact HP|]. eapply Permutation_trans; [apply Permutation_app; [exact P1|exact P2]|]. apply mrg_perm. auto.
        * apply mrg_sorted; auto.
  Qed.
End Sort.

Section List.
  Variable o : order.
  Variable tys : stypes.
  Notation evals := (evals o tys).
  Notation call := (call o tys).
  Notation calls := (calls o tys).
  Hypothesis HT : lookup list_List tys = Some list_tbl.
  Variable en : senv.
  Hypothesis Hnil : lookup list_Nil en = Some wnil.
  Hypothesis Hcons : lookup list_Cons en = Some (WCtor list_Cons 2 []).
  Hypothesis Hnone : lookup option_None en = Some (WCon false option_None []).
  Hypothesis Hsome : lookup option_Some en = Some (WCtor option_Some 1 []).
  Hypothesis Hok : lookup result_Ok en = Some (WCtor result_Ok 1 []).
  Hypothesis Herr : lookup result_Err en = Some (WCtor result_Err 1 []).
  Hypothesis Hiter : lookup intrinsics_iterate en = Some (WIter []).
  Hypothesis Hsconcat : lookup intrinsics_stringConcat en = Some (WOp StringConcat []).
  Hypothesis Htake : lookup list_TakeState2 en = Some (WCtor list_TakeState2 2 []).
  Hypothesis Htuple : lookup list_Tuple2 en = Some (WCtor list_Tuple2 2 []).
  Hypothesis Hrange : lookup list_RangeState2 en = Some (WCtor list_RangeState2 2 []).

  Lemma list_map_ok : exists v, evals en e_list_map v /\ list_map_spec o tys v.
  Proof.
    start. intros f xs ys HF. eapply calls2; [ap|].
    induction HF as [|x y xs ys Hx HF IH]; cbn [of_list fold_right]; fo.
  Qed.
  Lemma list_filter_ok : exists v, evals en e_list_filter v /\ list_filter_spec o tys v.
  Proof.
    start. intros f p xs HF. eapply calls2; [ap|].
    induction xs as [|x xs IH]; cbn [of_list fold_right filter].
    - fo.
    - assert (Hx := HF x (or_introl eq_refl)). assert (Hr := IH (fun y Hy => HF y (or_intror Hy))). clear IH. fo. destruct (p x); ev.
  Qed.
  Lemma list_sum_ok : exists v, evals en e_list_sum v /\ list_sum_spec o tys v.
  Proof.
    start. intros ns. apply calls1. rewrite <- mod_W.
    induction ns as [|n ns IH]; cbn [of_ints of_list map fold_right]; [fo|]. rewrite <- wrap_add_r. fo.
  Qed.
  Lemma list_product_ok : exists v, evals en e_list_product v /\ list_product_spec o tys v.
  Proof.
    start. intros ns. apply calls1. rewrite <- mod_W.
    induction ns as [|n ns IH]; cbn [of_ints of_list map fold_right]; [fo|]. rewrite <- wrap_mul_r. fo.
  Qed.
  Lemma list_any_ok : exists v, evals en e_list_any v /\ list_any_spec o tys v.
  Proof.
    start. intros bs. apply calls1.
    induction bs as [|b bs IH]; cbn [of_list map fold_right existsb]; fo. destruct b; ev.
  Qed.
  Lemma list_all_ok : exists v, evals en e_list_all v /\ list_all_spec o tys v.
  Proof.
    start. intros bs. apply calls1.
    induction bs as [|b bs IH]; cbn [of_list map fold_right forallb]; fo. destruct b; ev.
  Qed.
  Lemma list_head_ok : exists v, evals en e_list_head v /\ list_head_spec o tys v.
  Proof. start. intros xs. apply calls1. destruct xs; cbn; ap. Qed.
  Lemma list_tail_ok : exists v, evals en e_list_tail v /\ list_tail_spec o tys v.
  Proof. start. intros xs. apply calls1. destruct xs; cbn; ap. Qed.
  Lemma list_reverse_ok : exists v, evals en e_list_reverse v /\ list_reverse_spec o tys v.
  Proof.
    start. intros xs. apply calls1. apply app_fun. eapply ev_let; [ev|].
    match goal with |- evals ((_, ?F) :: _) _ _ => assert (G : forall xs, exists g, call F (of_list xs) g /\ forall acc, call g (of_list acc) (of_list (rev xs ++ acc))) end.
    { intros l. induction l as [|x l IH]; cbn [of_list fold_right rev].
      - eexists. split; [fo|]. intros acc. cbn [app]. ap.
      - destruct IH as (g & Hg & Hc). eexists. split; [fo|]. intros acc'. specialize (Hc (x :: acc')). rewrite <- app_assoc. cbn [app]. ap. }
    destruct (G xs) as (g & Hg & Hc). specialize (Hc []). rewrite app_nil_r in Hc. ev.
  Qed.
  Lemma list_max_ok : exists v, evals en e_list_max v /\ list_max_spec o tys v.
  Proof.
    start. match goal with |- list_max_spec _ _ ?F => assert (G : forall ns, call F (of_ints ns) (of_option (Datatypes.option_map WInt
      (fold_right (fun n r => Some match r with None => n | Some y => if (y <? n)%N then n else y end) None ns)))) end.
    { intros ns. induction ns as [|n ns IH]; cbn [of_ints of_list map fold_right Datatypes.option_map of_option]; [fo|].
      destruct (fold_right _ None ns) as [y|]; fo. destruct (y <? n)%N; ev. }
    split; [apply calls1, (G [])|]. intros ns m Hm HA. apply calls1. specialize (G ns).
    assert (E : fold_right (fun n r => Some match r with None => n | Some y => if (y <? n)%N then n else y end) None ns = Some m).
    { clear G. revert m Hm HA. induction ns as [|n ns IH]; intros m Hm HA; [destruct Hm|]. cbn [fold_right]. f_equal. destruct ns as [|k ns].
      - destruct Hm as [->|[]]. auto.
      - destruct Hm as [->|Hm].
        + destruct (fold_right _ None (k :: ns)) as [y|] eqn:Ey; auto. destruct (N.ltb_spec y m); auto.
          enough (y <= m)%N by lia. cbn [fold_right] in Ey.
          assert (HI : forall l y, fold_right (fun n r => Some match r with None => n | Some y => if (y <? n)%N then n else y end) None l = Some y -> In y l).
          { clear. induction l as [|n l IH]; cbn [fold_right]; intros y E; [discriminate|]. injection E as E.
            destruct (fold_right _ None l) as [z|]; [destruct (z <? n)%N; subst; [left; auto|right; auto]|left; auto]. }
          assert (H0 := HA y (or_intror (HI (k :: ns) y Ey))). lia.
        + rewrite (IH m Hm) by (intros; apply HA; right; auto). specialize (HA n (or_introl eq_refl)). destruct (N.ltb_spec m n); auto. lia. }
    rewrite E in G. exact G.
  Qed.
  Lemma list_min_ok : exists v, evals en e_list_min v /\ list_min_spec o tys v.
  Proof.
    start. match goal with |- list_min_spec _ _ ?F => assert (G : forall ns, call F (of_ints ns) (of_option (Datatypes.option_map WInt
      (fold_right (fun n r => Some match r with None => n | Some y => if (n <? y)%N then n else y end) None ns)))) end.
    { intros ns. induction ns as [|n ns IH]; cbn [of_ints of_list map fold_right Datatypes.option_map of_option]; [fo|].
      destruct (fold_right _ None ns) as [y|]; fo. destruct (n <? y)%N; ev. }
    split; [apply calls1, (G [])|]. intros ns m Hm HA. apply calls1. specialize (G ns).
    assert (E : fold_right (fun n r => Some match r with None => n | Some y => if (n <? y)%N then n else y end) None ns = Some m).
    { clear G. revert m Hm HA. induction ns as [|n ns IH]; intros m Hm HA; [destruct Hm|]. cbn [fold_right]. f_equal. destruct ns as [|k ns].
      - destruct Hm as [->|[]]. auto.
      - destruct Hm as [->|Hm].
        + destruct (fold_right _ None (k :: ns)) as [y|] eqn:Ey; auto. destruct (N.ltb_spec m y); auto.
          assert (HI : forall l y, fold_right (fun n r => Some match r with None => n | Some y => if (n <? y)%N then n else y end) None l = Some y -> In y l).
          { clear. induction l as [|n l IH]; cbn [fold_right]; intros y E; [discriminate|]. injection E as E.
            destruct (fold_right _ None l) as [z|]; [destruct (n <? z)%N; subst; [left; auto|right; auto]|left; auto]. }
          assert (H0 := HA y (or_intror (HI (k :: ns) y Ey))). lia.
        + rewrite (IH m Hm) by (intros; apply HA; right; auto). specialize (HA n (or_introl eq_refl)). destruct (N.ltb_spec n m); auto. lia. }
    rewrite E in G. exact G.
  Qed.
  Lemma list_maxBy_ok : exists v, evals en e_list_maxBy v /\ list_maxBy_spec o tys v.
  Proof.
    start. intros f lt xs HC [HA HN]. destruct xs as [|x xs]; [eapply calls2; [ap|]; cbn; fo|].
    match goal with |- context [calls ?V] => eassert (HS : call V f _) by ap end.
    match type of HS with SrcBig.call _ _ _ _ ?F => enough (G : exists m, In m (x :: xs) /\ (forall z, In z (x :: xs) -> lt m z = false) /\ call F (of_list (x :: xs)) (of_option (Some m))) end.
    { destruct G as (m & H1 & H2 & H3). exists m. split; auto. split; auto. eapply calls2; [exact HS|exact H3]. }
    match type of HS with SrcBig.call _ _ _ _ ?F => assert (Hn : call F wnil (of_option None)) by (unfold wnil; fo) end. clear HS.
    revert x HC. induction xs as [|y xs IH]; intros x HC.
    - exists x. split; [left; auto|]. split.
      + intros z [->|[]]. destruct (lt z z) eqn:E; auto. rewrite (HA _ _ E) in E. discriminate.
      + cbn [of_list fold_right of_option]. fo.
    - destruct (IH y) as (m & H1 & H2 & H3); [intros a b Ha Hb; apply HC; right; auto|].
      assert (Hc : calls f [x; m] (WBool (lt x m))) by (apply HC; [left; auto|right; auto]). ex.
      destruct (lt x m) eqn:E.
      + exists m. split; [right; auto|]. split; [intros z [<-|Hz]; auto|]. change (of_list (x :: y :: xs)) with (wcons x (of_list (y :: xs))). unfold wcons. fo.
      + exists x. split; [left; auto|]. split; [intros z [<-|Hz]; [|eapply HN; eauto]|].
        * destruct (lt x x) eqn:E1; auto. rewrite (HA _ _ E1) in E1. discriminate.
        * change (of_list (x :: y :: xs)) with (wcons x (of_list (y :: xs))). unfold wcons. fo.
  Qed.
  Lemma list_minBy_ok : exists v, evals en e_list_minBy v /\ list_minBy_spec o tys v.
  Proof.
    start. intros f lt xs HC [HA HN]. destruct xs as [|x xs]; [eapply calls2; [ap|]; cbn; fo|].
    match goal with |- context [calls ?V] => eassert (HS : call V f _) by ap end.
    match type of HS with SrcBig.call _ _ _ _ ?F => enough (G : exists m, In m (x :: xs) /\ (forall z, In z (x :: xs) -> lt z m = false) /\ call F (of_list (x :: xs)) (of_option (Some m))) end.
    { destruct G as (m & H1 & H2 & H3). exists m. split; auto. split; auto. eapply calls2; [exact HS|exact H3]. }
    match type of HS with SrcBig.call _ _ _ _ ?F => assert (Hn : call F wnil (of_option None)) by (unfold wnil; fo) end. clear HS.
    revert x HC. induction xs as [|y xs IH]; intros x HC.
    - exists x. split; [left; auto|]. split.
      + intros z [->|[]]. destruct (lt z z) eqn:E; auto. rewrite (HA _ _ E) in E. discriminate.
      + cbn [of_list fold_right of_option]. fo.
    - destruct (IH y) as (m & H1 & H2 & H3); [intros a b Ha Hb; apply HC; right; auto|].
      assert (Hc : calls f [x; m] (WBool (lt x m))) by (apply HC; [left; auto|right; auto]). ex.
      destruct (lt x m) eqn:E.
      + exists x. split; [left; auto|]. split; [intros z [<-|Hz]; [|eapply HN; [apply H2; auto|auto]]|].
        * destruct (lt x x) eqn:E1; auto. rewrite (HA _ _ E1) in E1. discriminate.
        * change (of_list (x :: y :: xs)) with (wcons x (of_list (y :: xs))). unfold wcons. fo.
      + exists m. split; [right; auto|]. split; [intros z [<-|Hz]; auto|]. change (of_list (x :: y :: xs)) with (wcons x (of_list (y :: xs))). unfold wcons. fo.
  Qed.
  Lemma list_allSome_ok : exists v, evals en e_list_allSome v /\ list_allSome_spec o tys v.
  Proof.
    start. match goal with |- list_allSome_spec _ _ ?F => assert (G : forall xs, call F (of_list (map of_option xs)) (of_option
      (fold_right (fun x r => match x, r with Some v, Some l => Some (wcons v l) | _, _ => None end) (Some wnil) xs))) end.
    { intros xs. induction xs as [|x xs IH]; cbn [of_list map fold_right of_option]; [fo|].
      destruct x as [v|]; cbn [of_option]; destruct (fold_right _ (Some wnil) xs) as [l|]; cbn [of_option] in *; fo. }
    split.
    - intros xs. apply calls1. specialize (G (map Some xs)). rewrite map_map in G.
      match type of G with context [fold_right ?h ?i (map Some xs)] => replace (fold_right h i (map Some xs)) with (Some (of_list xs)) in G end; [exact G|].
      clear G. induction xs as [|x xs IH]; cbn [fold_right map]; auto. rewrite <- IH. auto.
    - intros xs Hx. apply calls1. specialize (G xs).
      match type of G with context [fold_right ?h ?i xs] => replace (fold_right h i xs) with (@None sval) in G end; [exact G|].
      clear G. induction xs as [|x xs IH]; [destruct Hx|]. cbn [fold_right]. destruct Hx as [->|Hx]; auto. rewrite <- IH by auto. destruct x; auto.
  Qed.
  Lemma list_allOk_ok : exists v, evals en e_list_allOk v /\ list_allOk_spec o tys v.
  Proof.
    start. match goal with |- list_allOk_spec _ _ ?F => assert (G : forall xs, call F (of_list (map of_result xs)) (of_result
      (fold_right (fun x r => match x, r with inl v, inl l => inl (wcons v l) | inr e, _ => inr e | _, inr e => inr e end) (inl wnil) xs))) end.
    { intros xs. induction xs as [|x xs IH]; cbn [of_list map fold_right of_result]; [fo|].
      destruct x as [v|e]; cbn [of_result]; destruct (fold_right _ (inl wnil) xs) as [l|e']; cbn [of_result] in *; fo. }
    split.
    - intros xs. apply calls1. specialize (G (map inl xs)). rewrite map_map in G.
      match type of G with context [fold_right ?h ?i (map inl xs)] => replace (fold_right h i (map inl xs)) with (@inl sval sval (of_list xs)) in G end; [exact G|].
      clear G. induction xs as [|x xs IH]; cbn [fold_right map]; auto. rewrite <- IH. auto.
    - intros xs e rest. apply calls1. specialize (G (map inl xs ++ inr e :: rest)).
      match type of G with context [fold_right ?h ?i (map inl xs ++ _)] => replace (fold_right h i (map inl xs ++ inr e :: rest)) with (@inr sval sval e) in G end; [exact G|].
      clear G. induction xs as [|x xs IH]; cbn [fold_right map app]; auto. rewrite <- IH. auto.
  Qed.
  (** [iterate], with how the state evolves given. *)
  Lemma iters_fun {A} (g : sval) (rep : A -> sval) (step : A -> A) : (forall a, call g (rep a) (rep (step a))) ->
    forall k a, iters o tys g k (rep a) (rep (Nat.iter k step a)).
  Proof.
    intros H. induction k as [|k IH]; intros a; [constructor|]. econstructor; [apply H|].
    replace (Nat.iter (S k) step a) with (Nat.iter k step (step a)); auto. clear. induction k as [|k IH]; cbn; auto. f_equal. exact IH.
  Qed.
  Lemma list_skip_ok : exists v, evals en e_list_skip v /\ list_skip_spec o tys v.
  Proof.
    start. intros n xs Hn. eapply calls2; [ap|]. apply app_fun. eapply ev_let; [ev|].
    match goal with |- evals ((_, ?g) :: _) _ _ => assert (G : forall l, call g (of_list l) (of_list (tl l))) by (intros [|? ?]; cbn; ap);
      assert (HI := @app_iter o tys n g _ _ Hn (@iters_fun _ g of_list (@tl sval) G (N.to_nat n) xs)) end.
    replace (skipn (N.to_nat n) xs) with (Nat.iter (N.to_nat n) (@tl sval) xs); [ev|].
    clear. induction (N.to_nat n) as [|k IH] in xs |- *; auto. replace (Nat.iter (S k) (@tl sval) xs) with (Nat.iter k (@tl sval) (tl xs)).
    - rewrite IH. destruct xs; auto. destruct k; auto.
    - clear. induction k as [|k IH]; cbn; auto. f_equal. exact IH.
  Qed.
  Lemma list_take_ok vr : lookup list_reverse en = Some vr -> list_reverse_spec o tys vr -> exists v, evals en e_list_take v /\ list_take_spec o tys v.
  Proof.
    intros Hr HR. start. intros n xs Hn. eapply calls2; [ap|]. apply app_fun. eapply ev_let; [ev|].
    match goal with |- evals ((_, ?g) :: _) _ _ =>
      pose (rep := fun s : list sval * list sval => WCon false list_TakeState2 [of_list (fst s); of_list (snd s)]);
      pose (st := fun s : list sval * list sval => match snd s with [] => s | x :: r => (x :: fst s, r) end);
      assert (G : forall s, call g (rep s) (rep (st s))) by (intros [a [|x b]]; unfold rep, st; cbn; ap);
      assert (HI := @app_iter o tys n g _ _ Hn (@iters_fun _ g rep st G (N.to_nat n) ([], xs))) end.
    assert (E : forall k a l, Nat.iter k st (a, l) = (rev (firstn k l) ++ a, skipn k l)).
    { clear. induction k as [|k IH]; intros a l; auto. replace (Nat.iter (S k) st (a, l)) with (Nat.iter k st (st (a, l))).
      - destruct l as [|x l]; cbn [st fst snd]; rewrite IH; [destruct k; auto|]. cbn. rewrite <- app_assoc. auto.
      - clear. induction k as [|k IH]; cbn; auto. f_equal. exact IH. }
    rewrite E, app_nil_r in HI. unfold rep in HI. cbn [fst snd of_list fold_right] in HI. clear E.
    specialize (HR (rev (firstn (N.to_nat n) xs))). rewrite rev_involutive in HR. ex. ev.
  Qed.
  Lemma list_length_ok : exists v, evals en e_list_length v /\ list_length_spec o tys v.
  Proof.
    start. intros xs. apply calls1. rewrite <- mod_W. induction xs as [|x xs IH]; cbn [of_list fold_right length]; [fo|].
    replace (wrap (N.of_nat (S (length xs)))) with (wrap (1 + wrap (N.of_nat (length xs)))); [fo|]. rewrite wrap_add_r. f_equal. lia.
  Qed.
  Lemma list_foldr_ok : exists v, evals en e_list_foldr v /\ list_foldr_spec o tys v.
  Proof.
    start. intros f init xs r HF. eapply calls3; [ap|ap|]. revert r HF. induction xs as [|x xs IH]; intros r HF; cbn [of_list fold_right].
    - cbn in HF. subst. fo.
    - destruct HF as (w & Hw & Hr). specialize (IH w Hw). ex. fo.
  Qed.
  Lemma list_foldl_ok : exists v, evals en e_list_foldl v /\ list_foldl_spec o tys v.
  Proof.
    start. intros f init xs r HF. eapply calls3; [ap|ap|]. apply app_fun.
    match goal with |- context [(list_foldl_go, ?go)] => eassert (HS : call go f _) by ap end.
    match type of HS with SrcBig.call _ _ _ _ ?F => assert (G : forall xs, exists g, call F (of_list xs) g /\ forall acc r, folds_left o tys f acc xs r -> call g acc r) end.
    { intros l. induction l as [|x l (g & Hg & Hc)]; cbn [of_list fold_right].
      - eexists. split; [fo|]. intros acc r' H. cbn in H. subst. ap.
      - eexists. split; [fo|]. intros acc r' (w & Hw & Hr). specialize (Hc w r' Hr). ex. ap. }
    destruct (G xs) as (g & Hg & Hc). specialize (Hc init r HF). ev.
  Qed.
  Lemma list_repeat_ok : exists v, evals en e_list_repeat v /\ list_repeat_spec o tys v.
  Proof.
    start. intros n x Hn. eapply calls2; [ap|]. assert (G : forall l, call (WCtor list_Cons 2 [x]) (of_list l) (of_list (x :: l))) by (intros; apply ct2b).
    assert (HI := @app_iter o tys n _ _ _ Hn (@iters_fun _ _ of_list (cons x) G (N.to_nat n) [])).
    replace (Nat.iter (N.to_nat n) (cons x) []) with (repeat x (N.to_nat n)) in HI; [ap|].
    clear. induction (N.to_nat n) as [|k IH]; cbn; auto. f_equal. exact IH.
  Qed.
  Lemma list_filterMap_ok : exists v, evals en e_list_filterMap v /\ list_filterMap_spec o tys v.
  Proof.
    start. intros f xs ys HF. eapply calls2; [ap|].
    induction HF as [|x y xs ys Hx HF IH]; cbn [of_list fold_right flat_map]; [fo|]. destruct y; cbn [of_option app] in *; fo.
  Qed.
  Lemma list_concat_ok : exists v, evals en e_list_concat v /\ list_concat_spec o tys v.
  Proof.
    start. intros xs ys. eapply calls2; [ap|]. apply app_fun.
    match goal with |- context [(list_concat_helper, ?go)] => eassert (HS : call go (of_list ys) _) by ap end.
    match type of HS with SrcBig.call _ _ _ _ ?F => assert (G : call F (of_list xs) (of_list (xs ++ ys))) end; [|ev].
    induction xs as [|x xs IH]; cbn [of_list fold_right app]; fo.
  Qed.
  Lemma list_join_ok : exists v, evals en e_list_join v /\ list_join_spec o tys v.
  Proof.
    start. intros sep ss. eapply calls2; [ap|]. apply app_fun.
    match goal with |- context [(list_join_go, ?go)] => eassert (HS : call go (WStr sep) _) by ap end.
    match type of HS with SrcBig.call _ _ _ _ ?F => assert (G : forall l, call F (of_strings l) (WStr (flat_map (fun x => sep ++ x) l))) end.
    { intros l. induction l as [|x l IH]; cbn [of_strings of_list fold_right map flat_map]; [fo|]. rewrite <- app_assoc. fo. }
    assert (E : forall l x, intercalate sep (x :: l) = x ++ flat_map (fun x => sep ++ x) l).
    { clear. induction l as [|y l IH]; intros x; cbn [intercalate flat_map]; [rewrite app_nil_r; auto|]. f_equal. rewrite <- app_assoc. f_equal. apply IH. }
    destruct ss as [|x [|y ss]]; cbn [of_strings of_list fold_right map]; [ev|cbn [intercalate]; ev|]. rewrite E. specialize (G (y :: ss)).
    cbn [of_strings of_list fold_right map] in *. ev.
  Qed.
  Lemma list_range_ok : exists v, evals en e_list_range v /\ list_range_spec o tys v.
  Proof.
    start. split.
    { intros a b Hab Hb. change (b < W64)%N in Hb. eapply calls2; [ap|]. apply app_fun. eapply ev_let; [ev|].
    match goal with |- evals ((_, ?g) :: _) _ _ =>
      pose (rep := fun s : N * list N => WCon false list_RangeState2 [WInt (fst s); of_ints (snd s)]);
      pose (st := fun s : N * list N => (wrap (fst s + (W64 - 1)), fst s :: snd s));
      assert (G : forall s, call g (rep s) (rep (st s))) by (intros [c l]; unfold rep, st; cbn [fst snd of_ints map of_list fold_right]; ap);
      assert (HI := @app_iter o tys (b - a) g _ _ ltac:(lia) (@iters_fun _ g rep st G (N.to_nat (b - a)) (wrap (b + (W64 - 1)), []))) end.
    assert (E : forall k, (N.of_nat k <= b)%N -> snd (Nat.iter k st (wrap (b + (W64 - 1)), [])) = count_from (b - N.of_nat k) k /\
                 (fst (Nat.iter k st (wrap (b + (W64 - 1)), [])) = wrap (b - N.of_nat k + (W64 - 1)))).
    { clear - Hb. induction k as [|k IH]; intros Hk.
      - cbn. rewrite N.sub_0_r. auto.
      - destruct IH as [I1 I2]; [lia|]. cbn [Nat.iter nat_rect]. change (nat_rect (fun _ => (N * list N)%type) ?x (fun _ => st) k) with (Nat.iter k st x) in *.
        unfold st at 1 3. cbn [fst snd]. change (nat_rect (fun _ => (N * list N)%type) ?x (fun _ => st) k) with (Nat.iter k st x) in *. rewrite I1, I2.
        rewrite wrap_sub by lia. cbn [count_from]. split; [f_equal; [lia|f_equal; lia]|]. f_equal. lia. }
    destruct (E (N.to_nat (b - a)) ltac:(lia)) as [E1 _]. unfold rep in HI. rewrite E1 in HI. rewrite N2Nat.id in HI. replace (b - (b - a))%N with a in HI by lia.
    cbn [fst snd of_ints map of_list fold_right] in HI. rewrite <- (@wrap_sub b a) in HI at 1 by auto. ev. }
    intros a b Hab Ha. change (a < W64)%N in Ha.
    pose (rep := fun s : N * list N => WCon false list_RangeState2 [WInt (fst s); of_ints (snd s)]).
    pose (st := fun s : N * list N => (wrap (fst s + (W64 - 1)), fst s :: snd s)).
    exists (snd (Nat.iter (N.to_nat (wrap (b + (W64 - a)))) st (wrap (b + (W64 - 1)), []))).
    assert (EW : wrap (b + (W64 - a)) = (W64 - (a - b))%N) by (rewrite wrap_small; lia). split.
    { assert (E : forall k x, length (snd (Nat.iter k st x)) = k + length (snd x)) by (induction k as [|k IH]; intros x; auto; change (S (length (snd (Nat.iter k st x))) = S (k + length (snd x))); rewrite IH; auto).
      rewrite E. cbn [length snd]. rewrite EW. change (2 ^ 64)%N with W64. lia. }
    eapply calls2; [ap|]. apply app_fun. eapply ev_let; [ev|].
    match goal with |- evals ((_, ?g) :: _) _ _ =>
      assert (G : forall s, call g (rep s) (rep (st s))) by (intros [c l]; unfold rep, st; cbn [fst snd of_ints map of_list fold_right]; ap);
      assert (HI := @app_iter o tys (wrap (b + (W64 - a))) g _ _ ltac:(rewrite EW; lia) (@iters_fun _ g rep st G (N.to_nat (wrap (b + (W64 - a)))) (wrap (b + (W64 - 1)), []))) end.
    unfold rep in HI. cbn [fst snd of_ints map of_list fold_right] in HI. ev.
  Qed.
  Lemma list_zip_ok : exists v, evals en e_list_zip v /\ list_zip_spec o tys v.
  Proof.
    start. intros f xs ys zs HF.
    match goal with |- calls ?V _ _ => eassert (HS : call V f _) by ap end.
    match type of HS with SrcBig.call _ _ _ _ ?F => assert (G : forall xs, exists g, call F (of_list xs) g /\ forall ys zs, Forall2 (fun p z => calls f [fst p; snd p] z) (combine xs ys) zs -> call g (of_list ys) (of_list zs)) end.
    { clear HF HS ys zs. intros l. induction l as [|x l (g & Hg & Hc)]; cbn [of_list fold_right].
      - eexists. split; [fo|]. intros ys zs H. inversion H; subst. cbn [of_list fold_right]. ap.
      - eexists. split; [fo|]. intros ys zs H. destruct ys as [|y ys]; cbn [combine] in H; inversion H; subst; cbn [of_list fold_right]; [ap|].
        match goal with H : Forall2 _ _ _ |- _ => specialize (Hc _ _ H) end. cbn [fst snd] in *. ex. ap. }
    destruct (G xs) as (g & Hg & Hc). eapply calls3; [exact HS|exact Hg|apply Hc; auto].
  Qed.
  Lemma list_flatMap_ok vc : lookup list_concat en = Some vc -> list_concat_spec o tys vc -> exists v, evals en e_list_flatMap v /\ list_flatMap_spec o tys v.
  Proof.
    intros Hc HC. start. intros f xs yss HF. eapply calls2; [ap|].
    induction HF as [|x ys xs yss Hx HF IH]; cbn [of_list fold_right concat]; [fo|]. specialize (HC ys (concat yss)). ex. fo.
  Qed.
  Lemma list_flatten_ok vc : lookup list_concat en = Some vc -> list_concat_spec o tys vc -> exists v, evals en e_list_flatten v /\ list_flatten_spec o tys v.
  Proof.
    intros Hc HC. start. intros xss. apply calls1.
    induction xss as [|xs xss IH]; cbn [of_list map fold_right concat]; [fo|]. specialize (HC xs (concat xss)). ex. fo.
  Qed.
  Lemma list_sortBy_ok vc vl : lookup list_concat en = Some vc -> list_concat_spec o tys vc -> lookup list_length en = Some vl -> list_length_spec o tys vl ->
    exists v, evals en e_list_sortBy v /\ list_sortBy_spec o tys v.
  Proof.
    intros Hc HC Hl HL. start. intros f lt xs HCm [HA HN] Hlen.
    exists (srt lt (length xs) xs). destruct (@srt_ok _ lt HA HN _ _ (le_n (length xs))) as [HP HS]. split; auto. split; auto.
    match goal with |- context [(list_sortBy_merge, ?m)] => eassert (HM1 : call m f _) by ap end.
    match type of HM1 with SrcBig.call _ _ _ _ ?F => assert (GM1 : forall cs, exists g, call F (of_list cs) g /\
      forall a b, Forall (fun x => In x xs) a -> Forall (fun x => In x xs) b -> exists g', call g (of_list a) g' /\ call g' (of_list b) (of_list (mrg lt (length cs) a b))) end.
    { intros cs. induction cs as [|c cs (g & Hg & Hgo)]; cbn [of_list fold_right length mrg].
      - eexists. split; [fo|]. intros a b Fa Fb. eexists. split; [ap|]. ap.
      - eexists. split; [fo|]. intros a b Fa Fb. destruct a as [|x a]; [eexists; split; ap|]. destruct b as [|y b]; [eexists; split; cbn [of_list fold_right]; ap|].
        inversion Fa as [|? ? Ix Ia]; inversion Fb as [|? ? Iy Ib]; subst. assert (Hxy := HCm _ _ Ix Iy). ex.
        eexists. split; [ap|]. destruct (lt x y) eqn:E.
        + destruct (Hgo a (y :: b) Ia Fb) as (g2 & H1 & H2). cbn [of_list fold_right] in *. ap.
        + destruct (Hgo (x :: a) b Fa Ib) as (g2 & H1 & H2). cbn [of_list fold_right] in *. ap. }
    match goal with |- context [(list_sortBy_merge2, ?m)] => assert (GM2 : forall a b, Forall (fun x => In x xs) a -> Forall (fun x => In x xs) b ->
       calls m [f; of_list a; of_list b] (of_list (mrg lt (length (a ++ b)) a b))) end.
    { intros a b Fa Fb. destruct (GM1 (a ++ b)) as (g & Hg & Hgo). destruct (Hgo a b Fa Fb) as (g2 & H1 & H2). specialize (HC a b). ex. eapply calls3; ap. }
    match goal with |- context [(list_sortBy_split, ?m)] => assert (GS : forall l, call m (of_list l) (WCon false list_Tuple2 [of_list (fst (spl l)); of_list (snd (spl l))])) end.
    { intros l. induction l as [|x l IH]; cbn [of_list fold_right spl fst snd]; fo. }
    match goal with |- context [(list_sortBy_sort, ?m)] => eassert (HSo : call m f _) by ap end.
    match type of HSo with SrcBig.call _ _ _ _ ?F => assert (GSo : forall cs, exists g, call F (of_list cs) g /\
      forall l, Forall (fun x => In x xs) l -> length l <= length xs -> call g (of_list l) (of_list (srt lt (length cs) l)) /\ Forall (fun x => In x xs) (srt lt (length cs) l)) end.
    { intros cs. induction cs as [|c cs (g & Hg & Hgo)]; cbn [of_list fold_right length srt].
      - eexists. split; [fo|]. intros l Fl Ll. split; [ap|constructor].
      - eexists. split; [fo|]. intros l Fl Ll. specialize (HL l). rewrite N.mod_small in HL by lia. ex.
        destruct (Nat.leb_spec (length l) 1) as [L1|L1].
        + split; auto. ap. replace (N.of_nat (length l) <=? 1)%N with true by (symmetry; apply N.leb_le; lia). ev.
        + pose proof (spl_perm l) as SP. pose proof (Permutation_length SP) as SL. rewrite app_length in SL.
          apply (Permutation_Forall SP) in Fl. apply Forall_app in Fl. destruct Fl as [F1 F2].
          destruct (Hgo _ F1 ltac:(lia)) as [H1 H2]. destruct (Hgo _ F2 ltac:(lia)) as [H3 H4].
          specialize (GM2 _ _ H2 H4). specialize (GS l). ex. split; [|apply mrg_forall; auto]. ap.
          replace (N.of_nat (length l) <=? 1)%N with false by (symmetry; apply N.leb_gt; lia). ev. }
    destruct (GSo xs) as (g & Hg & Hgo). destruct (Hgo xs) as [H1 _]; auto; [apply Forall_forall; auto|].
    eapply calls2; [ap|]. ap.
  Qed.
End List.
