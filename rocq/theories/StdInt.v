(** std/int.tic meets its specification. *)
From Verif Require Import ArithProofs StdTac StdList StdString.
Set Implicit Arguments.

Lemma decimal_value s : decimal s = numeral_value s.
Proof.
  unfold decimal, numeral_value. generalize 0%N. induction s as [|c s IH]; intros n; cbn [fold_left]; auto. rewrite IH. f_equal. lia.
Qed.

(** The steps of Euclid's algorithm. *)
Definition gstep (s : N * N) : N * N := if N.eqb (snd s) 0 then s else (snd s, (fst s mod snd s)%N).
Lemma iter_shift {A} (f : A -> A) k x : Nat.iter (S k) f x = Nat.iter k f (f x).
Proof. induction k as [|k IH]; auto. change (f (Nat.iter (S k) f x) = f (Nat.iter k f (f x))). rewrite IH. auto. Qed.
Lemma gstep_gcd s : N.gcd (fst (gstep s)) (snd (gstep s)) = N.gcd (fst s) (snd s).
Proof.
  destruct s as [a b]. unfold gstep. cbn [fst snd]. destruct (N.eqb_spec b 0) as [->|Hb]; auto. cbn [fst snd].
  rewrite N.gcd_comm, N.gcd_mod by auto. apply N.gcd_comm.
Qed.
Lemma iter_gcd k s : N.gcd (fst (Nat.iter k gstep s)) (snd (Nat.iter k gstep s)) = N.gcd (fst s) (snd s).
Proof. induction k as [|k IH]; auto. change (Nat.iter (S k) gstep s) with (gstep (Nat.iter k gstep s)). rewrite gstep_gcd. auto. Qed.
Lemma fib_SS n : fib (S (S n)) = (fib (S n) + fib n)%N.
Proof.
  unfold fib. generalize 0%N, 1%N. induction n as [|n IH]; intros a b; [cbn; lia|].
  change (fib_from b (a + b) (S (S n)) = fib_from b (a + b) (S n) + fib_from b (a + b) n)%N. apply IH.
Qed.
(** Lame: a number of steps takes a number of the size of a Fibonacci number. *)
Lemma lame k : forall a b, snd (Nat.iter k gstep (a, b)) <> 0%N -> (fib (S (S k)) <= b)%N /\ (k > 0 -> (b <= a)%N -> (fib (S (S (S k))) <= a)%N).
Proof.
  induction k as [|k IH]; intros a b H.
  - cbn [Nat.iter nat_rect snd] in H. split; [change (fib 2) with 1%N; lia|lia].
  - rewrite iter_shift in H. unfold gstep at 2 in H. cbn [fst snd] in H.
    destruct (N.eqb_spec b 0%N) as [Eb|Hb].
    { exfalso. rewrite Eb in H. apply H. clear. assert (E : forall j, Nat.iter j gstep (a, 0%N) = (a, 0%N)) by (induction j as [|j E]; auto; cbn; fold (Nat.iter j gstep (a, 0%N)); rewrite E; auto). rewrite E. auto. }
    destruct (IH _ _ H) as [H1 H2]. assert (Hlt := N.mod_lt a b Hb).
    assert (G : (fib (S (S (S k))) <= b)%N).
    { destruct k as [|k]; [change (fib 3) with 2%N; change (fib 2) with 1%N in H1; lia|]. apply H2; lia. }
    split; auto. intros _ Hab. rewrite fib_SS. assert (HD := N.div_mod a b Hb).
    assert (1 <= a / b)%N by (apply N.div_le_lower_bound; lia). nia.
Qed.

(** Bits. *)
Lemma half_shift x : (x / 2 = N.shiftr x 1)%N.
Proof. rewrite N.shiftr_div_pow2. auto. Qed.
Lemma half_lxor a b : (N.lxor a b / 2 = N.lxor (a / 2) (b / 2))%N. Proof. rewrite !half_shift. apply N.shiftr_lxor. Qed.
Lemma half_land a b : (N.land a b / 2 = N.land (a / 2) (b / 2))%N. Proof. rewrite !half_shift. apply N.shiftr_land. Qed.
Lemma half_lor a b : (N.lor a b / 2 = N.lor (a / 2) (b / 2))%N. Proof. rewrite !half_shift. apply N.shiftr_lor. Qed.
Lemma small_shift x n : (x < 2 ^ n)%N <-> N.shiftr x n = 0%N.
Proof. rewrite N.shiftr_div_pow2. rewrite N.div_small_iff; [reflexivity|]. apply N.pow_nonzero. lia. Qed.
Lemma small_lxor a b n : (a < 2 ^ n -> b < 2 ^ n -> N.lxor a b < 2 ^ n)%N.
Proof. rewrite !small_shift. intros Ha Hb. rewrite N.shiftr_lxor, Ha, Hb. auto. Qed.
Lemma small_land a b n : (a < 2 ^ n -> b < 2 ^ n -> N.land a b < 2 ^ n)%N.
Proof. rewrite !small_shift. intros Ha Hb. rewrite N.shiftr_land, Ha, Hb. auto. Qed.
Lemma small_lor a b n : (a < 2 ^ n -> b < 2 ^ n -> N.lor a b < 2 ^ n)%N.
Proof. rewrite !small_shift. intros Ha Hb. rewrite N.shiftr_lor, Ha, Hb. auto. Qed.
Lemma wrap_mod2 x : (wrap x mod 2 = x mod 2)%N.
Proof.
  unfold wrap. change W64 with (2 * 2 ^ 63)%N. rewrite N.mod_mul_r by (apply N.pow_nonzero || idtac; lia). rewrite (N.mul_comm 2), N.mod_add by lia. apply N.mod_mod. lia.
Qed.
Lemma low_xor a b : (N.lxor a b mod 2 = wrap (a + b) mod 2)%N.
Proof.
  rewrite wrap_mod2, N.add_mod, <- !N.bit0_mod, N.lxor_spec by lia. destruct (N.testbit a 0), (N.testbit b 0); reflexivity.
Qed.
Lemma low_and a b : (N.land a b mod 2 = wrap (a mod 2 * b) mod 2)%N.
Proof.
  rewrite wrap_mod2, N.mul_mod, N.mod_mod, <- !N.bit0_mod, N.land_spec by lia. destruct (N.testbit a 0), (N.testbit b 0); reflexivity.
Qed.
Lemma low_or a b : (N.lor a b mod 2 = if N.eqb (a mod 2) 1 then 1 else b mod 2)%N.
Proof. rewrite <- !N.bit0_mod, N.lor_spec. destruct (N.testbit a 0), (N.testbit b 0); reflexivity. Qed.
Lemma bit_step (x y : N) k : (x / 2 = y)%N -> k < 64 -> wrap (wrap (y mod 2 ^ N.of_nat k * 2) + x mod 2) = (x mod 2 ^ N.of_nat (S k))%N.
Proof.
  intros <- Hk. rewrite wrap_add_l. rewrite Nat2N.inj_succ, N.pow_succ_r by lia. rewrite N.mod_mul_r by (try apply N.pow_nonzero; lia).
  assert (H1 := N.mod_lt (x / 2) (2 ^ N.of_nat k) ltac:(apply N.pow_nonzero; lia)). assert (H2 := N.mod_lt x 2 ltac:(lia)).
  assert (H3 : (2 ^ N.of_nat k <= 2 ^ 63)%N) by (apply N.pow_le_mono_r; lia).
  rewrite wrap_small; [lia|]. change W64 with (2 * 2 ^ 63)%N. lia.
Qed.
Lemma iters_snoc o tys g k x y z : iters o tys g k x y -> call o tys g y z -> iters o tys g (S k) x z.
Proof. induction 1; intros; econstructor; eauto. constructor. Qed.

Section Int.
  Variable o : order.
  Variable tys : stypes.
  Notation evals := (evals o tys).
  Notation call := (call o tys).
  Notation calls := (calls o tys).
  Variable en : senv.
  Hypothesis Hok : lookup result_Ok en = Some (WCtor result_Ok 1 []).
  Hypothesis Herr : lookup result_Err en = Some (WCtor result_Err 1 []).
  Hypothesis Hiter : lookup intrinsics_iterate en = Some (WIter []).
  Hypothesis Htos : lookup intrinsics_intToString en = Some (WOp IntToString []).
  Hypothesis Hparsing : lookup int_Parsing en = Some (WCtor int_Parsing 2 []).
  Hypothesis Herror : lookup int_Error en = Some (WCon false int_Error []).
  Hypothesis Hperr : lookup int_ParseErr2 en = Some parse_err.
  Hypothesis Hgst : lookup int_GcdState2 en = Some (WCtor int_GcdState2 2 []).

  Lemma int_iterate_ok : exists v, evals en e_int_iterate v /\ int_iterate_spec o tys v.
  Proof. start. intros n f x r Hn HI. assert (H := @app_iter o tys n f x r Hn HI). eapply calls3; ap. Qed.
  Lemma int_toString_ok : exists v, evals en e_int_toString v /\ int_toString_spec o tys v.
  Proof.
    start. intros n. destruct (int_to_string_spec n) as (H1 & H2 & H3 & H4). exists (int_to_string n). split; [exact H1|]. split; auto.
    split; [rewrite decimal_value; auto|]. split; [intros r E; rewrite E in H4; specialize (H4 eq_refl); congruence|]. apply calls1. ap.
  Qed.
  Lemma int_min_ok : exists v, evals en e_int_min v /\ int_min_spec o tys v.
  Proof. start. intros a b. eapply calls2; [ap|]. ap. unfold N.min. destruct (N.ltb_spec a b), (N.compare_spec a b); try lia; subst; ev. Qed.
  Lemma int_max_ok : exists v, evals en e_int_max v /\ int_max_spec o tys v.
  Proof. start. intros a b. eapply calls2; [ap|]. ap. unfold N.max. destruct (N.ltb_spec b a), (N.compare_spec a b); try lia; subst; ev. Qed.
  Lemma int_parse_ok vl vf : lookup string_length en = Some vl -> string_length_spec o tys vl -> lookup string_foldChars en = Some vf -> string_foldChars_spec o tys vf ->
    exists v, evals en e_int_parse v /\ int_parse_spec o tys v.
  Proof.
    intros Hl HL Hf HF. start.
    pose (rep := fun s : option (N * N) => match s with Some (i, a) => WCon false int_Parsing [WInt i; WInt a] | None => WCon false int_Error [] end).
    pose (st := fun (s : option (N * N)) c => match s with Some (i, a) => if N.ltb c 48 then None else if N.leb 58 c then None else Some (wrap (i + 1), wrap (wrap (a * 10) + wrap (c + (W64 - 48)))) | None => None end).
    assert (G : forall s, short s -> calls (WFun en int_parse_s ltac:(let t := eval cbv delta [e_int_parse] in e_int_parse in match t with SLam _ _ _ ?b => exact b end)) [WStr s]
      (of_result (if N.eqb (N.of_nat (length s)) 0 then inr parse_err else match fold_left st s (Some (0%N, 0%N)) with Some (_, a) => inl (WInt a) | None => inr parse_err end))).
    { intros s Hs. apply calls1. apply app_fun. eapply ev_let; [ev|]. assert (H1 := HL s). ex. ev.
      destruct (N.eqb (N.of_nat (length s)) 0); [ev|].
      match goal with |- context [(int_parse_step, ?g)] => pose (F := g); assert (G : forall st0 c, In c s -> calls F [rep st0; WInt c] (rep (st st0 c))) end.
      { intros [[i a]|] c _; unfold F, rep, st; (eapply calls2; [ap|]; ap). destruct (N.ltb c 48); [ev|]. ev. destruct (N.leb 58 c); ev. }
      assert (H1 := @HF F (rep (Some (0, 0)%N)) s _ Hs (@folds_left_fun o tys _ F rep st s G (Some (0, 0)%N))). unfold F in H1.
      destruct (fold_left st s (Some (0%N, 0%N))) as [[i a]|]; unfold rep in H1; ex; ev. }
    assert (ES : forall s i a, digits s -> exists j, fold_left st s (Some (i, wrap a)) = Some (j, wrap (fold_left (fun acc c => acc * 10 + (c - 48))%N s a))).
    { clear. induction s as [|c s IH]; intros i a Hd; [exists i; auto|]. inversion Hd as [|? ? Hc Hd']; subst. cbn [fold_left]. unfold st at 2.
      replace (c <? 48)%N with false by (symmetry; apply N.ltb_ge; lia). replace (58 <=? c)%N with false by (symmetry; apply N.leb_gt; lia).
      rewrite wrap_sub by (unfold W64; lia). rewrite wrap_mul_l, wrap_add_l. apply IH. auto. }
    assert (EN : forall s i a, ~ digits s -> fold_left st s (Some (i, a)) = None).
    { clear. assert (E0 : forall s, fold_left st s None = None) by (induction s; auto). induction s as [|c s IH]; intros i a Hd; [exfalso; apply Hd; constructor|].
      cbn [fold_left]. unfold st at 2. destruct (N.ltb_spec c 48); auto. destruct (N.leb_spec 58 c); auto. apply IH. intros H1. apply Hd. constructor; auto. lia. }
    split.
    - intros s Hs Hne Hd. specialize (G s Hs). replace (N.eqb (N.of_nat (length s)) 0) with false in G by (symmetry; apply N.eqb_neq; destruct s; [congruence|cbn; lia]).
      destruct (ES s 0%N 0%N Hd) as [j Ej]. change (wrap 0) with 0%N in Ej. rewrite Ej in G. exact G.
    - intros s Hs [->|Hd]; specialize (G _ Hs); [exact G|]. rewrite EN in G by auto. destruct (N.eqb _ 0); exact G.
  Qed.
  Lemma int_gcd_ok : exists v, evals en e_int_gcd v /\ int_gcd_spec o tys v.
  Proof.
    start. pose (rep := fun s : N * N => WCon false int_GcdState2 [WInt (fst s); WInt (snd s)]).
    match goal with |- int_gcd_spec _ _ ?F => assert (G : forall a b, calls F [WInt a; WInt b] (WInt (fst (Nat.iter 65 gstep (a, b))))) end.
    { intros a b. eapply calls2; [ap|]. apply app_fun.
      match goal with |- context [(int_gcd_stepState, ?g)] => assert (HS : forall s, call g (rep s) (rep (gstep s))) end.
      { intros [x y]. unfold rep, gstep. cbn [fst snd]. ap. destruct (N.eqb_spec y 0) as [->|Hy]; [ev|]. cbn [fst snd].
        replace (x mod y)%N with (if N.eqb y 0 then x else x mod y)%N by (destruct (N.eqb_spec y 0); congruence). ev. }
      match goal with |- context [(int_gcd_stepState, ?g)] => assert (HI := @app_iter o tys 65%N g _ _ ltac:(unfold W64; lia) (@iters_fun o tys _ g rep gstep HS 65 (a, b))) end.
      destruct (Nat.iter 65 gstep (a, b)) as [x y]. unfold rep in HI. cbn [fst snd] in *. ev. }
    split.
    - intros a b Hb. specialize (G a b). pose proof (iter_gcd 65 (a, b)) as EG. cbn [fst snd] in EG.
      destruct (N.eq_dec (snd (Nat.iter 65 gstep (a, b))) 0) as [E|E]; [rewrite E, N.gcd_0_r in EG; rewrite EG in G; exact G|].
      exfalso. destruct (lame 65 a b E) as [H _]. lia.
    - specialize (G (fib 68) (fib 67)). assert (E : fst (Nat.iter 65 gstep (fib 68, fib 67)) = 2%N) by (vm_compute; reflexivity). rewrite E in G. exact G.
  Qed.
  Lemma int_lcm_ok vg : lookup int_gcd en = Some vg -> int_gcd_spec o tys vg -> exists v, evals en e_int_lcm v /\ int_lcm_spec o tys v.
  Proof.
    intros Hg [HG _]. start. intros a b Hb Hlt. specialize (HG a b Hb). ex. eapply calls2; [ap|].
    change (2 ^ 64)%N with W64 in Hlt.
    replace (N.lcm a b) with (wrap ((if N.eqb (N.gcd a b) 0 then 0 else a / N.gcd a b) * b)%N); [ap|].
    destruct (N.eqb_spec (N.gcd a b) 0) as [E|E].
    - apply N.gcd_eq_0 in E. destruct E as [-> ->]. reflexivity.
    - destruct (N.gcd_divide_l a b) as [a' Ea], (N.gcd_divide_r a b) as [b' Eb].
      assert (E2 : (a / N.gcd a b * b = N.lcm a b)%N).
      { unfold N.lcm. set (gg := N.gcd a b) in *. clearbody gg. rewrite Ea, Eb. rewrite !N.div_mul by auto. lia. }
      rewrite E2. apply wrap_small. auto.
  Qed.
  Lemma int_bitXor_ok vi : lookup int_iterate en = Some vi -> int_iterate_spec o tys vi -> exists v, evals en e_int_bitXor v /\ int_bitXor_spec o tys v.
  Proof.
    intros Hi HI.
    let t := eval cbv delta [e_int_bitXor] in e_int_bitXor in match t with SLet _ _ (SLam ?x _ _ ?b) (SApply (SApply (SApply _ _) _) (SParen (SLam ?y _ _ ?c))) =>
      pose (G := WFun en x b); pose (B := WFun ((int_bitXor_go, G) :: en) y c) end.
    assert (HK : forall k, k <= 64 -> exists v, iters o tys G k B v /\ forall a b, calls v [WInt a; WInt b] (WInt (N.lxor a b mod 2 ^ N.of_nat k))).
    { induction k as [|k IH]; intros Hk.
      - exists B. split; [constructor|]. intros a b. rewrite N.mod_1_r. unfold B. eapply calls2; ap.
      - destruct IH as (v & H1 & H2); [lia|]. eexists. split; [eapply iters_snoc; [exact H1|unfold G; ap]|].
        intros a b. specialize (H2 (a / 2)%N (b / 2)%N). ex. eapply calls2; [ap|]. 
        replace (N.lxor a b mod 2 ^ N.of_nat (S k))%N with (wrap (wrap (N.lxor (a / 2) (b / 2) mod 2 ^ N.of_nat k * 2) + (wrap (a + b) mod 2))%N); [ap|].
        replace (wrap (a + b) mod 2)%N with (N.lxor a b mod 2)%N by (apply low_xor). apply bit_step; [apply half_lxor|lia]. }
    destruct (HK 64 (le_n _)) as (v & H1 & H2). assert (H3 := HI 64%N G B v eq_refl H1). exists v. split.
    - unfold e_int_bitXor. ex. ev.
    - intros a b Ha Hb. specialize (H2 a b). rewrite N.mod_small in H2; [exact H2|]. change (N.of_nat 64) with 64%N. apply small_lxor; auto.
  Qed.
  Lemma int_bitAnd_ok vi : lookup int_iterate en = Some vi -> int_iterate_spec o tys vi -> exists v, evals en e_int_bitAnd v /\ int_bitAnd_spec o tys v.
  Proof.
    intros Hi HI.
    let t := eval cbv delta [e_int_bitAnd] in e_int_bitAnd in match t with SLet _ _ (SLam ?x _ _ ?b) (SApply (SApply (SApply _ _) _) (SParen (SLam ?y _ _ ?c))) =>
      pose (G := WFun en x b); pose (B := WFun ((int_bitAnd_go, G) :: en) y c) end.
    assert (HK : forall k, k <= 64 -> exists v, iters o tys G k B v /\ forall a b, calls v [WInt a; WInt b] (WInt (N.land a b mod 2 ^ N.of_nat k))).
    { induction k as [|k IH]; intros Hk.
      - exists B. split; [constructor|]. intros a b. rewrite N.mod_1_r. unfold B. eapply calls2; ap.
      - destruct IH as (v & H1 & H2); [lia|]. eexists. split; [eapply iters_snoc; [exact H1|unfold G; ap]|].
        intros a b. specialize (H2 (a / 2)%N (b / 2)%N). ex. eapply calls2; [ap|]. 
        replace (N.land a b mod 2 ^ N.of_nat (S k))%N with (wrap (wrap (N.land (a / 2) (b / 2) mod 2 ^ N.of_nat k * 2) + (wrap (a mod 2 * b) mod 2))%N); [ap|].
        replace (wrap (a mod 2 * b) mod 2)%N with (N.land a b mod 2)%N by (apply low_and). apply bit_step; [apply half_land|lia]. }
    destruct (HK 64 (le_n _)) as (v & H1 & H2). assert (H3 := HI 64%N G B v eq_refl H1). exists v. split.
    - unfold e_int_bitAnd. ex. ev.
    - intros a b Ha Hb. specialize (H2 a b). rewrite N.mod_small in H2; [exact H2|]. change (N.of_nat 64) with 64%N. apply small_land; auto.
  Qed.
  Lemma int_bitOr_ok vi : lookup int_iterate en = Some vi -> int_iterate_spec o tys vi -> exists v, evals en e_int_bitOr v /\ int_bitOr_spec o tys v.
  Proof.
    intros Hi HI.
    let t := eval cbv delta [e_int_bitOr] in e_int_bitOr in match t with SLet _ _ (SLam ?x _ _ ?b) (SApply (SApply (SApply _ _) _) (SParen (SLam ?y _ _ ?c))) =>
      pose (G := WFun en x b); pose (B := WFun ((int_bitOr_go, G) :: en) y c) end.
    assert (HK : forall k, k <= 64 -> exists v, iters o tys G k B v /\ forall a b, calls v [WInt a; WInt b] (WInt (N.lor a b mod 2 ^ N.of_nat k))).
    { induction k as [|k IH]; intros Hk.
      - exists B. split; [constructor|]. intros a b. rewrite N.mod_1_r. unfold B. eapply calls2; ap.
      - destruct IH as (v & H1 & H2); [lia|]. eexists. split; [eapply iters_snoc; [exact H1|unfold G; ap]|].
        intros a b. specialize (H2 (a / 2)%N (b / 2)%N). ex. eapply calls2; [ap|]. 
        replace (N.lor a b mod 2 ^ N.of_nat (S k))%N with (wrap (wrap (N.lor (a / 2) (b / 2) mod 2 ^ N.of_nat k * 2) + (if N.eqb (a mod 2) 1 then 1 else b mod 2))%N); [apply app_fun; eapply (@ev_let o tys _ _ _ _ _ (WInt (if N.eqb (a mod 2) 1 then 1 else b mod 2)%N)); [|ev];
          ev; change (if (2 =? 0)%N then a else (a mod 2)%N) with (a mod 2)%N; destruct (N.eqb (a mod 2) 1); [ev|change (b mod 2)%N with (if (2 =? 0)%N then b else (b mod 2)%N); ev]|].
        replace (if N.eqb (a mod 2) 1 then 1 else b mod 2)%N with (N.lor a b mod 2)%N by (apply low_or). apply bit_step; [apply half_lor|lia]. }
    destruct (HK 64 (le_n _)) as (v & H1 & H2). assert (H3 := HI 64%N G B v eq_refl H1). exists v. split.
    - unfold e_int_bitOr. ex. ev.
    - intros a b Ha Hb. specialize (H2 a b). rewrite N.mod_small in H2; [exact H2|]. change (N.of_nat 64) with 64%N. apply small_lor; auto.
  Qed.
End Int.
