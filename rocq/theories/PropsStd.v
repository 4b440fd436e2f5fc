(** C40, C45, C46, C47: the standard library, std/*.tic.  StdLib.v has the modules as [import] brings them into a
    program (made from the source text by tools/std2coq.py), SrcSem.v says what such programs do, and StdSpec.v
    says what the functions should do.  By C44 the compiled program does the same.  [o] is the order in which a
    function and its argument are evaluated. *)
From Verif Require Import GenFacts EvalFacts Orders Wf Verify VerifyNames VerifyLimit OptGood OptAll PropsOpt GenSpec GenCore SrcSpec PropsOptAll PropsSource StdTac StdList StdInt StdAll.
Set Implicit Arguments.

Lemma fold_decimal r : forall acc, (acc * 10 ^ N.of_nat (length r) <= fold_left (fun acc c => acc * 10 + (c - 48))%N r acc)%N.
Proof.
  induction r as [|c r IH]; intros acc; [cbn; lia|]. cbn [fold_left length]. eapply N.le_trans; [|apply IH].
  rewrite Nat2N.inj_succ, N.pow_succ_r', N.mul_assoc. apply N.mul_le_mono_r. lia.
Qed.
Lemma numeral_short s n : (n < 2 ^ 64)%N -> digits s -> decimal s = n -> (forall r, s = 48%N :: r -> r = []) -> short s.
Proof.
  intros Hn D V Z. unfold short. destruct s as [|c r]; [cbn; lia|]. inversion D as [|? ? Hc _ E1]; subst.
  destruct (N.eq_dec c 48) as [->|Nc]; [rewrite (Z r eq_refl); cbn; lia|].
  unfold decimal in Hn. cbn [fold_left] in Hn. pose proof (fold_decimal r (0 * 10 + (c - 48))) as H.
  assert (L : (10 ^ N.of_nat (length r) < 10 ^ 20)%N).
  { eapply N.le_lt_trans; [|apply (N.lt_trans _ (2 ^ 64)); [exact Hn|reflexivity]]. eapply N.le_trans; [|exact H].
    replace (10 ^ N.of_nat (length r))%N with (1 * 10 ^ N.of_nat (length r))%N at 1 by lia. apply N.mul_le_mono_r. lia. }
  apply N.pow_lt_mono_r_iff in L; [|lia]. cbn [length]. change (2 ^ 64)%N with 18446744073709551616%N. lia.
Qed.

(** C40.  std/int: [gcd] and [lcm] for second arguments below fib(67) = 44945570212853. *)
Theorem C40_int_library_partial : forall o rest, exists E, after_std o rest E /\ int_module o (std_types rest) E.
Proof. intros o rest. destruct (std_program o rest) as (E & (_ & _ & _ & _ & H & _) & HE). exists E. auto. Qed.
Print Assumptions C40_int_library_partial.
(** [parse] inverts [toString], and takes nothing but digits. *)
Theorem C40_parse_inverts_toString : forall o rest, exists E tos par, after_std o rest E /\
  lookup int_toString E = Some tos /\ lookup int_parse E = Some par /\
  (forall n, (n < 2 ^ 64)%N -> exists s, calls o (std_types rest) tos [WInt n] (WStr s) /\
    calls o (std_types rest) par [WStr s] (of_result (inl (WInt n)))) /\
  (forall s n, short s -> calls o (std_types rest) par [WStr s] (of_result (inl (WInt n))) -> s <> [] /\ digits s /\ n = (decimal s mod 2 ^ 64)%N).
Proof.
  intros o rest. destruct (std_program o rest) as (E & (_ & _ & _ & _ & H & _) & HE). exists E.
  destruct H as (_ & (tos & L1 & H1) & (par & L2 & H2) & _). exists tos, par. split; [auto|]. split; [auto|]. split; [auto|]. split.
  - intros n Hn. destruct (H1 n) as (s & D & NE & V & Z & C). exists s. split; auto. assert (Hs : short s) by (eapply numeral_short; eauto). destruct H2 as [H2 _]. specialize (H2 s Hs NE D).
    rewrite V, N.mod_small in H2; auto.
  - intros s n Hs C. destruct H2 as [H2 H3].
    assert (G : s <> [] /\ digits s).
    { destruct s as [|c s']; [exfalso|split; [discriminate|]].
      - specialize (H3 [] Hs (or_introl eq_refl)). pose proof (@apps_det _ _ _ _ _ _ C H3). discriminate.
      - assert (Dc : {digits (c :: s')} + {~ digits (c :: s')}).
        { unfold digits. apply Forall_dec. intros x. destruct (N.leb 48 x) eqn:B1, (N.leb x 57) eqn:B2; rewrite ?N.leb_le, ?N.leb_gt in *; [left|right|right|right]; lia. }
        destruct Dc as [Dc|Dc]; auto. exfalso. specialize (H3 _ Hs (or_intror Dc)). pose proof (@apps_det _ _ _ _ _ _ C H3). discriminate. }
    destruct G as [G1 G2]. split; auto. split; auto. specialize (H2 s Hs G1 G2). pose proof (@apps_det _ _ _ _ _ _ C H2) as E1. injection E1. auto.
Qed.
Print Assumptions C40_parse_inverts_toString.
(** The library stops Euclid's algorithm after 65 steps: two 64-bit numbers without a common divisor have 2. *)
Theorem C40_gcd_refuted : forall o rest, exists E gcd a b, after_std o rest E /\ lookup int_gcd E = Some gcd /\
  (a < 2 ^ 64)%N /\ (b < 2 ^ 64)%N /\ N.gcd a b = 1%N /\ calls o (std_types rest) gcd [WInt a; WInt b] (WInt 2).
Proof.
  intros o rest. destruct (std_program o rest) as (E & (_ & _ & _ & _ & H & _) & HE).
  destruct H as (_ & _ & _ & _ & _ & (g & L & _ & H) & _). exists E, g, (fib 68), (fib 67). repeat split; auto.
Qed.
Print Assumptions C40_gcd_refuted.
(** A numeral that is too large is not an error: 18446744073709551616 parses as 0. *)
Definition too_large : bytes := [49; 56; 52; 52; 54; 55; 52; 52; 48; 55; 51; 55; 48; 57; 53; 53; 49; 54; 49; 54]%N.
Theorem C40_parse_refuted : forall o rest, exists E par, after_std o rest E /\ lookup int_parse E = Some par /\
  decimal too_large = (2 ^ 64)%N /\ calls o (std_types rest) par [WStr too_large] (of_result (inl (WInt 0))).
Proof.
  intros o rest. destruct (std_program o rest) as (E & (_ & _ & _ & _ & H & _) & HE).
  destruct H as (_ & _ & (p & L & H & _) & _). exists E, p. split; [auto|]. split; [auto|]. split; [reflexivity|]. 
  apply (H too_large); [reflexivity|discriminate|]. repeat constructor; vm_compute; discriminate.
Qed.
Print Assumptions C40_parse_refuted.

(** C45.  std/list, std/option and std/result. *)
Theorem C45_list_library : forall o rest, exists E, after_std o rest E /\ list_module o (std_types rest) E.
Proof. intros o rest. destruct (std_program o rest) as (E & (_ & _ & H & _) & HE). exists E. auto. Qed.
Print Assumptions C45_list_library.
Theorem C45_option_result_library : forall o rest, exists E, after_std o rest E /\ option_module o (std_types rest) E /\ result_module o (std_types rest) E.
Proof. intros o rest. destruct (std_program o rest) as (E & (H1 & H2 & _) & HE). exists E. auto. Qed.
Print Assumptions C45_option_result_library.
(** A range that ends before it starts is not empty: it has almost 2^64 elements. *)
Theorem C45_range_refuted : forall o rest, exists E range ns, after_std o rest E /\ lookup list_range E = Some range /\
  calls o (std_types rest) range [WInt 1; WInt 0] (of_ints ns) /\ N.of_nat (length ns) = 18446744073709551615%N.
Proof.
  intros o rest. destruct (std_program o rest) as (E & (_ & _ & H & _) & HE).
  assert (G : has E list_range (list_range_spec o (std_types rest))) by (unfold list_module in H; tauto).
  destruct G as (v & L & _ & G). destruct (G 1%N 0%N eq_refl eq_refl) as (ns & Hn & C). exists E, v, ns. auto.
Qed.
Print Assumptions C45_range_refuted.

(** C46.  std/string. *)
Theorem C46_string_library : forall o rest, exists E, after_std o rest E /\ string_module o (std_types rest) E.
Proof. intros o rest. destruct (std_program o rest) as (E & (_ & _ & _ & H & _) & HE). exists E. auto. Qed.
Print Assumptions C46_string_library.

(** C47.  std/array: there is a relation between arrays and lists that all the functions keep. *)
Theorem C47_array_library : forall o rest, exists E, after_std o rest E /\ array_module o (std_types rest) E.
Proof. intros o rest. destruct (std_program o rest) as (E & (_ & _ & _ & _ & _ & H) & HE). exists E. auto. Qed.
Print Assumptions C47_array_library.

(** A program that uses the library, [main = list.sum (list.range 0 5)]: it runs, it meets what C44 asks for, and
    the generated code passes the verifier. *)
Definition sum_rest : list item :=
  [IVal 1000 [] SInt (Some [109%N]) (inr (SApply (SName list_sum []) (SParen (SApply (SApply (SName list_range []) (SNumber 0)) (SNumber 5)))))].
Definition modof (k : nat) : list item := nth k [mod_intrinsics; mod_option; mod_result; mod_list; mod_string; mod_int; mod_array] [].
Definition known (p : nat * list item) : Prop := fst p < 7 /\ snd p = modof (fst p).
Definition all_known (is : list item) : Prop := Forall known (reached is).
Lemma known_import k a r : k < 7 -> a = modof k -> all_known a -> all_known r -> all_known (IImport [(k, a)] :: r).
Proof.
  intros H1 H2 H3 H4. unfold all_known, reached in *. cbn [flat_map imports snd]. rewrite app_nil_r. constructor; [split; auto|].
  apply Forall_app. split; auto.
Qed.
Lemma known_other i r : imports i = [] -> all_known r -> all_known (i :: r).
Proof. intros H1 H2. unfold all_known, reached in *. cbn [flat_map]. rewrite H1. auto. Qed.
Ltac known := repeat lazymatch goal with
  | |- all_known (IImport _ :: _) => apply known_import; [unfold key_intrinsics, key_option, key_result, key_list, key_string, key_int, key_array; lia | reflexivity | assumption |]
  | |- all_known (_ :: _) => apply known_other; [reflexivity|]
  end; constructor.
Lemma reached_std k a : In (k, a) (reached (std_imports ++ sum_rest)) -> k < 7 /\ a = modof k.
Proof.
  assert (K0 : all_known mod_intrinsics) by (unfold mod_intrinsics; known).
  assert (K1 : all_known mod_option) by (unfold mod_option; known).
  assert (K2 : all_known mod_result) by (unfold mod_result; known).
  assert (K3 : all_known mod_list) by (unfold mod_list; known).
  assert (K4 : all_known mod_string) by (unfold mod_string; known).
  assert (K5 : all_known mod_int) by (unfold mod_int; known).
  assert (K6 : all_known mod_array) by (unfold mod_array; known).
  assert (F : all_known (std_imports ++ sum_rest)) by (unfold std_imports, sum_rest; cbn [app]; known).
  intros H. unfold all_known in F. rewrite Forall_forall in F. exact (F _ H).
Qed.
Fixpoint distinct (l : list nat) : bool := match l with [] => true | x :: r => negb (existsb (Nat.eqb x) r) && distinct r end.
Lemma distinct_ok l : distinct l = true -> NoDup l.
Proof.
  induction l as [|x l IH]; cbn; intros H; constructor; apply andb_prop in H; destruct H as [H1 H2]; auto.
  intros Hi. apply Bool.negb_true_iff in H1. rewrite <- Bool.not_true_iff_false in H1. apply H1. apply existsb_exists. exists x. rewrite Nat.eqb_refl. auto.
Qed.
Definition apart (a b : list nat) : bool := forallb (fun x => negb (existsb (Nat.eqb x) b)) a.
Lemma apart_ok a b x : apart a b = true -> In x a -> ~ In x b.
Proof.
  intros H Ha Hb. unfold apart in H. rewrite forallb_forall in H. specialize (H x Ha). apply Bool.negb_true_iff in H.
  rewrite <- Bool.not_true_iff_false in H. apply H. apply existsb_exists. exists x. rewrite Nat.eqb_refl. auto.
Qed.
Lemma below_7 (P : nat -> bool) k : forallb P (seq 0 7) = true -> k < 7 -> P k = true.
Proof. intros H Hk. rewrite forallb_forall in H. apply H. apply in_seq. lia. Qed.
Lemma sum_resolved : resolved (std_imports ++ sum_rest).
Proof.
  split.
  - intros k a b Ha Hb. apply reached_std in Ha, Hb. destruct Ha as [_ ->], Hb as [_ ->]. auto.
  - split; [apply distinct_ok; vm_compute; reflexivity|]. intros k a Ha. apply reached_std in Ha. destruct Ha as [Hk ->].
    apply distinct_ok. apply (@below_7 (fun k => distinct (syms (modof k)))); [vm_compute; reflexivity|assumption].
  - split.
    + intros k a x Ha Hx. apply reached_std in Ha. destruct Ha as [Hk ->].
      eapply apart_ok; [|exact Hx]. apply (@below_7 (fun k => apart (syms (std_imports ++ sum_rest)) (syms (modof k)))); [vm_compute; reflexivity|assumption].
    + intros k a j b x Ha Hb Hn Hx. apply reached_std in Ha, Hb. destruct Ha as [Hk ->], Hb as [Hj ->].
      eapply apart_ok; [|exact Hx].
      assert (G : forallb (fun j => Nat.eqb k j || apart (syms (modof k)) (syms (modof j))) (seq 0 7) = true).
      { apply (@below_7 (fun k => forallb (fun j => Nat.eqb k j || apart (syms (modof k)) (syms (modof j))) (seq 0 7))); [vm_compute; reflexivity|assumption]. }
      apply (@below_7 _ j) in G; auto. apply Bool.orb_prop in G. destruct G as [G|G]; auto. apply Nat.eqb_eq in G. congruence.
  - split; [vm_compute; reflexivity|]. intros k a Ha. apply reached_std in Ha. destruct Ha as [Hk ->].
    apply (@below_7 (fun k => module_scoped [] (modof k))); [vm_compute; reflexivity|assumption].
Qed.
Definition plain_item (i : item) : bool := match i with IVal _ _ _ _ (inr e) => plain_folds e | _ => true end.
Lemma sum_typed : typed (std_imports ++ sum_rest).
Proof.
  split.
  - assert (G : forallb plain_item (flat (std_imports ++ sum_rest)) = true) by (vm_compute; reflexivity).
    intros x vars t ex e H. rewrite forallb_forall in G. exact (G _ H).
  - assert (G : forallb (fun i => apart (map fst (types_of (flat (std_imports ++ sum_rest)))) (item_tvars i)) (flat (std_imports ++ sum_rest)) = true) by (vm_compute; reflexivity).
    intros y i Hi Hy. rewrite forallb_forall in G. eapply apart_ok; [exact (G _ Hi)|auto].
Qed.
Example C45_example : exists p, generate_core (std_imports ++ sum_rest) = Some p /\ resolved (std_imports ++ sum_rest) /\ typed (std_imports ++ sum_rest) /\
  verified 5000 p [] = true /\ forallb (fun d => branches_distinct (vd_value d)) (p_defs p) = true /\
  match run_source FnFirst 300 (std_imports ++ sum_rest) with Ok en => lookup 1000 en | _ => None end = Some (WInt 10).
Proof.
  assert (L : forall og (A B C : Prop), match og with
              | Some p => verified 5000 p [] && forallb (fun d => branches_distinct (vd_value d)) (p_defs p)
              | None => false end = true -> A -> B -> C ->
     exists p, og = Some p /\ A /\ B /\ verified 5000 p [] = true /\ forallb (fun d => branches_distinct (vd_value d)) (p_defs p) = true /\ C).
  { intros [p|] A B C G HA HB HC; [|discriminate]. apply andb_prop in G. destruct G as [G1 G2]. exists p. auto 8. }
  apply L; [vm_compute; reflexivity|apply sum_resolved|apply sum_typed|vm_compute; reflexivity].
Qed.

(** The hypotheses of the specifications hold of the programs one expects them to hold of: comparing numbers. *)
Definition less_fun : sval := WFun [] 1 (SLam 2 [] SInt (SBinary (SName 1 []) Less (SName 2 []))).
Definition int_less (a b : sval) : bool :=
  let key v := match v with WInt n => N.succ n | _ => 0%N end in N.ltb (key a) (key b).
Example C45_sort_example : forall o tys ns, compares o tys less_fun (map WInt ns) int_less /\ ordering int_less.
Proof.
  intros o tys ns. split.
  - intros x y Hx Hy. apply in_map_iff in Hx, Hy. destruct Hx as (a & <- & _), Hy as (b & <- & _). unfold less_fun.
    replace (int_less (WInt a) (WInt b)) with (N.ltb a b).
    + eapply calls2; ap.
    + unfold int_less. destruct (N.ltb_spec a b), (N.ltb_spec (N.succ a) (N.succ b)); auto; lia.
  - unfold int_less. split; intros *; rewrite ?N.ltb_lt, ?N.ltb_ge; lia.
Qed.
