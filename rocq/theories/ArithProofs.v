(** Integer operators and string intrinsics against mathematical specifications. *)
From Verif Require Import Eval Vm.
From Coq Require Import ZifyBool ZifyNat ZifyN.
Set Implicit Arguments.

Definition M64 : Z := (2 ^ 64)%Z.
Lemma W64_Z : Z.of_N W64 = M64. Proof. reflexivity. Qed.

(** ** Specification of the operators, on mathematical integers. *)
Definition spec_arith (o : op) (a b : Z) : option Z :=
  match o with
  | Add => Some ((a + b) mod M64)
  | Subtract => Some ((a - b) mod M64)
  | Multiply => Some ((a * b) mod M64)
  | Divide => Some (if (b =? 0)%Z then 0 else a / b)
  | Modulo => Some (if (b =? 0)%Z then a else a mod b)
  | _ => None
  end%Z.
Definition spec_cmp (o : op) (a b : Z) : option Prop :=
  match o with
  | Less => Some (a < b) | LessEq => Some (a <= b)
  | Greater => Some (a > b) | GreaterEq => Some (a >= b)
  | Equal => Some (a = b) | NotEqual => Some (a <> b)
  | _ => None
  end%Z.

Lemma wrap_Z a : Z.of_N (wrap a) = (Z.of_N a mod M64)%Z.
Proof. unfold wrap. rewrite N2Z.inj_mod. reflexivity. Qed.
Lemma wrap_lt a : (wrap a < W64)%N.
Proof. apply N.mod_lt. discriminate. Qed.

Lemma arith_spec o a b r : (a < W64)%N -> (b < W64)%N -> spec_arith o (Z.of_N a) (Z.of_N b) = Some r ->
  (0 <= r < M64)%Z /\ eval_op o a b = VInt (Z.to_N r) /\ vm_bin o a b = MInt (Z.to_N r).
Proof.
  intros Ha Hb H.
  assert (HM : (0 <= r < M64)%Z).
  { pose proof W64_Z. destruct o; simpl in H; try discriminate; injection H as <-;
      try (apply Z.mod_pos_bound; reflexivity).
    - destruct (Z.eqb_spec (Z.of_N b) 0); [split; reflexivity || discriminate|].
      split; [apply Z.div_pos; lia|]. apply Z.le_lt_trans with (Z.of_N a); [|lia].
      apply Z.div_le_upper_bound; [lia|]. nia.
    - destruct (Z.eqb_spec (Z.of_N b) 0); [lia|]. pose proof (Z.mod_pos_bound (Z.of_N a) (Z.of_N b)). lia. }
  split; auto.
  assert (E : eval_op o a b = VInt (Z.to_N r)).
  { destruct o; cbn [spec_arith] in H; try discriminate; injection H as <-; cbn [eval_op]; f_equal; apply N2Z.inj;
      rewrite Z2N.id by lia; rewrite ?wrap_Z.
    - rewrite N2Z.inj_add; auto.
    - rewrite N2Z.inj_add, N2Z.inj_sub, W64_Z by lia.
      replace (Z.of_N a + (M64 - Z.of_N b))%Z with (Z.of_N a - Z.of_N b + 1 * M64)%Z by lia.
      apply Z.mod_add. discriminate.
    - rewrite N2Z.inj_mul; auto.
    - destruct (N.eqb_spec b 0); destruct (Z.eqb_spec (Z.of_N b) 0); try lia; apply N2Z.inj_div.
    - destruct (N.eqb_spec b 0); destruct (Z.eqb_spec (Z.of_N b) 0); try lia; apply N2Z.inj_mod. }
  split; auto. destruct o; try discriminate; simpl in *; injection E as E; rewrite <- E; auto.
Qed.

Lemma cmp_spec o a b P : spec_cmp o (Z.of_N a) (Z.of_N b) = Some P ->
  exists r, eval_op o a b = VBool r /\ vm_bin o a b = MBool r /\ (r = true <-> P).
Proof.
  intros H; destruct o; simpl in H; try discriminate; injection H as <-; simpl; eexists; repeat split; intros; try reflexivity; lia.
Qed.

(** ** Strings *)
Lemma char_at_spec idx s :
  (forall c, (idx < N.of_nat (length s))%N -> nth_error s (N.to_nat idx) = Some c -> str_char_at idx s = c) /\
  ((N.of_nat (length s) <= idx)%N -> str_char_at idx s = 0%N).
Proof.
  unfold str_char_at; split.
  - intros c _ ->; auto.
  - intros H. destruct (nth_error s (N.to_nat idx)) eqn:E; auto.
    assert (N.to_nat idx < length s) by (apply nth_error_Some; congruence). lia.
Qed.

(** The slice [start, start+len) clamped to the string. *)
Lemma substring_spec start len s :
  (forall i, nth_error (str_substring start len s) i =
     if (N.of_nat i <? len)%N then nth_error s (N.to_nat start + i) else None) /\
  N.of_nat (length (str_substring start len s)) =
    N.min len (N.of_nat (length s) - start).
Proof.
  assert (Hn : forall (l : bytes) i n, nth_error (firstn n l) i = if i <? n then nth_error l i else None).
  { clear. intros l; induction l as [|x l IH]; intros i n.
    - destruct n, i; simpl; auto; destruct (_ <? _); auto.
    - destruct n, i; simpl; auto. rewrite IH. auto. }
  assert (Hs : forall (l : bytes) i n, nth_error (skipn n l) i = nth_error l (n + i)).
  { clear. intros l; induction l as [|x l IH]; intros i n; destruct n; simpl; auto.
    destruct i; auto. }
  unfold str_substring, get_to, get_from, str_len. split.
  - intros i. destruct (N.leb_spec start (N.of_nat (length s))).
    + destruct (N.leb_spec len (N.of_nat (length (skipn (N.to_nat start) s)))).
      * rewrite Hn, Hs. destruct (Nat.ltb_spec i (N.to_nat len)); destruct (N.ltb_spec (N.of_nat i) len); auto; lia.
      * rewrite Hs. destruct (N.ltb_spec (N.of_nat i) len); auto.
        apply nth_error_None. rewrite skipn_length in *. lia.
    + replace (nth_error s (N.to_nat start + i)) with (@None N) by (symmetry; apply nth_error_None; lia).
      simpl. destruct (len <=? 0)%N; [rewrite firstn_nil|]; destruct i; simpl; destruct (_ <? _)%N; auto.
  - destruct (N.leb_spec start (N.of_nat (length s))).
    + pose proof (skipn_length (N.to_nat start) s).
      destruct (N.leb_spec len (N.of_nat (length (skipn (N.to_nat start) s)))).
      * rewrite firstn_length. lia.
      * lia.
    + simpl. destruct (len <=? 0)%N; [rewrite firstn_nil|]; simpl; lia.
Qed.

(** ** Decimal numerals *)
(** The number a digit string denotes. *)
Definition numeral_value (s : bytes) : N := fold_left (fun n d => 10 * n + (d - 48))%N s 0%N.
Definition is_digit (d : N) : Prop := (48 <= d <= 57)%N.

Lemma size_nat_div n : (10 <= n)%N -> N.size_nat (n / 10) < N.size_nat n.
Proof.
  intros H.
  assert (Hs : forall m k, (m < 2 ^ N.of_nat k)%N -> N.size_nat m <= k).
  { intros m k Hm. destruct m as [|q]; simpl; [lia|].
    revert k Hm. induction q; intros k Hm; destruct k as [|k]; simpl; try lia.
    - assert (E : (2 ^ N.of_nat (S k) = 2 * 2 ^ N.of_nat k)%N) by (rewrite Nat2N.inj_succ, N.pow_succ_r'; auto).
      rewrite E in Hm. specialize (IHq k). assert (N.pos q < 2 ^ N.of_nat k)%N by lia. specialize (IHq H0). lia.
    - assert (E : (2 ^ N.of_nat (S k) = 2 * 2 ^ N.of_nat k)%N) by (rewrite Nat2N.inj_succ, N.pow_succ_r'; auto).
      rewrite E in Hm. specialize (IHq k). assert (N.pos q < 2 ^ N.of_nat k)%N by lia. specialize (IHq H0). lia. }
  assert (Hb : (n < 2 ^ N.of_nat (N.size_nat n))%N).
  { destruct n as [|q]; [lia|]. clear. simpl. induction q.
    - simpl Pos.size_nat. rewrite Nat2N.inj_succ, N.pow_succ_r'. lia.
    - simpl Pos.size_nat. rewrite Nat2N.inj_succ, N.pow_succ_r'. lia.
    - simpl. reflexivity. }
  destruct (N.size_nat n) as [|k] eqn:E; [simpl in Hb; lia|].
  apply Nat.lt_succ_r. apply Hs. rewrite Nat2N.inj_succ, N.pow_succ_r' in Hb.
  apply N.div_lt_upper_bound; [lia|]. lia.
Qed.

Lemma fold_numeral s : forall n, fold_left (fun n d => 10 * n + (d - 48))%N s n =
  (n * 10 ^ N.of_nat (length s) + numeral_value s)%N.
Proof.
  unfold numeral_value. induction s as [|d s IH]; intros n; cbn [fold_left].
  - simpl. lia.
  - rewrite IH. rewrite (IH (10 * 0 + (d - 48))%N). simpl length. rewrite Nat2N.inj_succ, N.pow_succ_r'. lia.
Qed.

Lemma dec_digits_spec fuel : forall n acc, N.size_nat n < fuel ->
  exists ds, dec_digits fuel n acc = ds ++ acc /\ Forall is_digit ds /\ numeral_value ds = n /\ ds <> [] /\
             (n <> 0%N -> hd 0%N ds <> 48%N) /\ (n = 0%N -> ds = [48%N]).
Proof.
  induction fuel as [|fuel IH]; intros n acc Hf; [lia|]. cbn [dec_digits].
  assert (Hd : is_digit (48 + n mod 10)%N) by (pose proof (N.mod_lt n 10); unfold is_digit; lia).
  destruct (N.ltb_spec n 10).
  - exists [(48 + n mod 10)%N]. split; auto. split; auto. rewrite N.mod_small in * by auto.
    split; [unfold numeral_value; cbn [fold_left]; lia|]. split; [discriminate|]. split; cbn [hd]; [lia|]. intros ->; reflexivity.
  - destruct (IH (n / 10)%N ((48 + n mod 10)%N :: acc)) as (ds & E & Hds & Hv & Hne & Hh & _).
    { pose proof (size_nat_div H). lia. }
    exists (ds ++ [(48 + n mod 10)%N]). rewrite E, <- app_assoc. split; auto.
    split; [apply Forall_app; split; auto|]. split.
    + unfold numeral_value. rewrite fold_left_app. cbn [fold_left]. fold (numeral_value ds). rewrite Hv.
      pose proof (N.div_mod n 10). lia.
    + split; [intros Hc; apply app_eq_nil in Hc as [_ Hc]; discriminate|]. split; [|lia].
      intros _. destruct ds as [|d ds]; [congruence|]. cbn [app hd] in *. apply Hh.
      intros E0. assert (n / 10 <> 0)%N; [|lia]. pose proof (N.div_le_lower_bound n 10 1). lia.
Qed.

Lemma int_to_string_spec n :
  Forall is_digit (int_to_string n) /\ numeral_value (int_to_string n) = n /\ int_to_string n <> [] /\
  (hd 0%N (int_to_string n) = 48%N -> int_to_string n = [48%N]).
Proof.
  unfold int_to_string. destruct (@dec_digits_spec (S (N.size_nat n)) n []) as (ds & E & H1 & H2 & H3 & H4 & H5); [lia|].
  rewrite E, app_nil_r. repeat split; auto. intros Hh. apply H5. destruct (N.eqb_spec n 0); auto.
  exfalso; apply H4; auto.
Qed.

Lemma int_to_string_inj n m : int_to_string n = int_to_string m -> n = m.
Proof.
  intros H. destruct (int_to_string_spec n) as (_ & E1 & _). destruct (int_to_string_spec m) as (_ & E2 & _). congruence.
Qed.

(** ** The operators as programs see them *)
Lemma run_arith ord n en e1 e2 o a b r :
  (a < W64)%N -> (b < W64)%N ->
  eval_o ord n en e1 = Ok (VInt a) -> eval_o ord n en e2 = Ok (VInt b) ->
  spec_arith o (Z.of_N a) (Z.of_N b) = Some r ->
  (0 <= r < M64)%Z /\ eval_o ord n en (EOp e1 o e2) = Ok (VInt (Z.to_N r)).
Proof.
  intros Ha Hb E1 E2 H. destruct (arith_spec o Ha Hb H) as (Hr & E & _). split; auto.
  destruct n; simpl in *; rewrite E1; simpl; rewrite E2; simpl; rewrite E; auto.
Qed.
Lemma run_cmp ord n en e1 e2 o a b P :
  eval_o ord n en e1 = Ok (VInt a) -> eval_o ord n en e2 = Ok (VInt b) ->
  spec_cmp o (Z.of_N a) (Z.of_N b) = Some P ->
  exists r, eval_o ord n en (EOp e1 o e2) = Ok (VBool r) /\ (r = true <-> P).
Proof.
  intros E1 E2 H. destruct (cmp_spec o a b H) as (r & E & _ & Hr). exists r. split; auto.
  destruct n; simpl in *; rewrite E1; simpl; rewrite E2; simpl; rewrite E; auto.
Qed.
Lemma vm_arith code pc st o a b r :
  (a < W64)%N -> (b < W64)%N -> nth_error code pc = Some (OBin o) ->
  spec_arith o (Z.of_N a) (Z.of_N b) = Some r ->
  (0 <= r < M64)%Z /\ step code pc (MInt b :: MInt a :: st) = Next (S pc) (MInt (Z.to_N r) :: st).
Proof.
  intros Ha Hb Hc H. destruct (arith_spec o Ha Hb H) as (Hr & _ & E). split; auto.
  unfold step. rewrite Hc, E. auto.
Qed.
Lemma vm_cmp code pc st o a b P : nth_error code pc = Some (OBin o) ->
  spec_cmp o (Z.of_N a) (Z.of_N b) = Some P ->
  exists r, step code pc (MInt b :: MInt a :: st) = Next (S pc) (MBool r :: st) /\ (r = true <-> P).
Proof.
  intros Hc H. destruct (cmp_spec o a b H) as (r & _ & E & Hr). exists r. split; auto.
  unfold step. rewrite Hc, E. auto.
Qed.
Lemma concat_spec a b :
  str_len (a ++ b) = (str_len a + str_len b)%N /\
  (forall i, (i < str_len a)%N -> str_char_at i (a ++ b) = str_char_at i a) /\
  (forall i, str_char_at (str_len a + i) (a ++ b) = str_char_at i b).
Proof.
  unfold str_len, str_char_at. split; [rewrite app_length; lia|]. split; intros i.
  - intros H. rewrite nth_error_app1 by lia. auto.
  - rewrite nth_error_app2 by lia. replace (N.to_nat _ - _) with (N.to_nat i) by lia. auto.
Qed.
Lemma substring_concat a b : str_substring 0 (str_len a) (a ++ b) = a /\ str_substring (str_len a) (str_len b) (a ++ b) = b.
Proof.
  assert (Ext : forall (l l' : bytes), (forall i, nth_error l i = nth_error l' i) -> l = l').
  { induction l as [|x l IH]; intros [|y l'] H; auto; try (specialize (H 0); discriminate).
    f_equal; [specialize (H 0); simpl in H; congruence|]. apply IH. intros i. apply (H (S i)). }
  split; apply Ext; intros i; rewrite (proj1 (substring_spec _ _ _)); unfold str_len.
  - simpl. destruct (N.ltb_spec (N.of_nat i) (N.of_nat (length a))).
    + rewrite nth_error_app1 by lia. auto.
    + symmetry; apply nth_error_None; lia.
  - rewrite nth_error_app2 by lia. replace (N.to_nat _ + i - _) with i by lia.
    destruct (N.ltb_spec (N.of_nat i) (N.of_nat (length b))); auto. symmetry; apply nth_error_None; lia.
Qed.
Lemma from_char_spec c : str_len (str_from_char c) = 1%N /\ str_char_at 0 (str_from_char c) = (c mod 256)%N.
Proof. split; reflexivity. Qed.

(** The string instructions of the VM compute the same functions as the tree-walker's intrinsics. *)
Lemma vm_str_spec s s1 s2 idx start len c i st :
  vm_str StringLen (MStr s :: st) = Some (MInt (str_len s) :: st) /\
  vm_str StringConcat (MStr s2 :: MStr s1 :: st) = Some (MStr (s1 ++ s2) :: st) /\
  vm_str StringCharAt (MStr s :: MInt idx :: st) = Some (MInt (str_char_at idx s) :: st) /\
  vm_str StringSubstring (MStr s :: MInt len :: MInt start :: st) = Some (MStr (str_substring start len s) :: st) /\
  vm_str StringFromChar (MInt c :: st) = Some (MStr (str_from_char c) :: st) /\
  vm_str IntToString (MInt i :: st) = Some (MStr (int_to_string i) :: st).
Proof.
  repeat split; simpl. repeat f_equal. unfold str_char_at, str_len.
  destruct (N.ltb_spec idx (N.of_nat (length s))).
  - destruct (nth_error s (N.to_nat idx)) eqn:E; [apply nth_error_nth; auto|].
    apply nth_error_None in E. lia.
  - destruct (nth_error s (N.to_nat idx)) eqn:E; auto.
    assert (N.to_nat idx < length s) by (apply nth_error_Some; congruence). lia.
Qed.
