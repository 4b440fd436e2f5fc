(** Properties C07 (integers) and C08 (strings). *)
From Verif Require Import Eval Vm ArithProofs.

(** C07.  [spec_arith]/[spec_cmp] (ArithProofs.v) state the operators on mathematical integers: + - *
    modulo 2^64, x/0 = 0, x%0 = x, unsigned comparison. *)
Theorem C07_treewalk_arith :
  forall ord n en e1 e2 o a b r,
    (a < 2 ^ 64)%N -> (b < 2 ^ 64)%N ->
    eval_o ord n en e1 = Ok (VInt a) -> eval_o ord n en e2 = Ok (VInt b) ->
    spec_arith o (Z.of_N a) (Z.of_N b) = Some r ->
    (0 <= r < 2 ^ 64)%Z /\ eval_o ord n en (EOp e1 o e2) = Ok (VInt (Z.to_N r)).
Proof. exact run_arith. Qed.
Print Assumptions C07_treewalk_arith.
Theorem C07_treewalk_compare :
  forall ord n en e1 e2 o a b P,
    eval_o ord n en e1 = Ok (VInt a) -> eval_o ord n en e2 = Ok (VInt b) ->
    spec_cmp o (Z.of_N a) (Z.of_N b) = Some P ->
    exists r, eval_o ord n en (EOp e1 o e2) = Ok (VBool r) /\ (r = true <-> P).
Proof. exact run_cmp. Qed.
Print Assumptions C07_treewalk_compare.
Theorem C07_bytecode_arith :
  forall code pc st o a b r,
    (a < 2 ^ 64)%N -> (b < 2 ^ 64)%N -> nth_error code pc = Some (OBin o) ->
    spec_arith o (Z.of_N a) (Z.of_N b) = Some r ->
    (0 <= r < 2 ^ 64)%Z /\ step code pc (MInt b :: MInt a :: st) = Next (S pc) (MInt (Z.to_N r) :: st).
Proof. exact vm_arith. Qed.
Print Assumptions C07_bytecode_arith.
Theorem C07_bytecode_compare :
  forall code pc st o a b P,
    nth_error code pc = Some (OBin o) -> spec_cmp o (Z.of_N a) (Z.of_N b) = Some P ->
    exists r, step code pc (MInt b :: MInt a :: st) = Next (S pc) (MBool r :: st) /\ (r = true <-> P).
Proof. exact vm_cmp. Qed.
Print Assumptions C07_bytecode_compare.
Example C07_hypotheses_met :
  eval_o FnFirst 0 [] (EOp (EInt 3) Subtract (EInt 5)) = Ok (VInt 18446744073709551614) /\
  spec_arith Subtract 3 5 = Some 18446744073709551614%Z /\
  eval_o FnFirst 0 [] (EOp (EInt 7) Divide (EInt 0)) = Ok (VInt 0) /\
  eval_o FnFirst 0 [] (EOp (EInt 7) Modulo (EInt 0)) = Ok (VInt 7) /\
  step [OBin Multiply] 0 [MInt (2 ^ 63); MInt 3] = Next 1 [MInt (2 ^ 63)].
Proof. repeat split. Qed.

(** C08.  charAt: the byte at the index, 0 out of range. *)
Theorem C08_char_at :
  forall (idx : N) (s : bytes),
    (forall c, (idx < N.of_nat (length s))%N -> nth_error s (N.to_nat idx) = Some c -> str_char_at idx s = c) /\
    ((N.of_nat (length s) <= idx)%N -> str_char_at idx s = 0%N).
Proof. exact char_at_spec. Qed.
Print Assumptions C08_char_at.
(** substring: byte [i] of the result is byte [start + i] of the string for [i < len], and the length is
    the clamped one; this determines the result for all arguments. *)
Theorem C08_substring :
  forall (start len : N) (s : bytes),
    (forall i, nth_error (str_substring start len s) i =
               if (N.of_nat i <? len)%N then nth_error s (N.to_nat start + i) else None) /\
    N.of_nat (length (str_substring start len s)) = N.min len (N.of_nat (length s) - start).
Proof. exact substring_spec. Qed.
Print Assumptions C08_substring.
Theorem C08_concat :
  forall a b : bytes,
    str_len (a ++ b) = (str_len a + str_len b)%N /\
    (forall i, (i < str_len a)%N -> str_char_at i (a ++ b) = str_char_at i a) /\
    (forall i, str_char_at (str_len a + i) (a ++ b) = str_char_at i b).
Proof. exact concat_spec. Qed.
Print Assumptions C08_concat.
Theorem C08_substring_concat :
  forall a b : bytes,
    str_substring 0 (str_len a) (a ++ b) = a /\ str_substring (str_len a) (str_len b) (a ++ b) = b.
Proof. exact substring_concat. Qed.
Print Assumptions C08_substring_concat.
Theorem C08_from_char :
  forall c, str_len (str_from_char c) = 1%N /\ str_char_at 0 (str_from_char c) = (c mod 256)%N.
Proof. exact from_char_spec. Qed.
Print Assumptions C08_from_char.
(** fromInt: a non-empty string of digits denoting the number, without leading zero. *)
Theorem C08_int_to_string :
  forall n : N,
    Forall is_digit (int_to_string n) /\ numeral_value (int_to_string n) = n /\ int_to_string n <> [] /\
    (hd 0%N (int_to_string n) = 48%N -> int_to_string n = [48%N]).
Proof. exact int_to_string_spec. Qed.
Print Assumptions C08_int_to_string.
Theorem C08_int_to_string_injective :
  forall n m : N, int_to_string n = int_to_string m -> n = m.
Proof. exact int_to_string_inj. Qed.
Print Assumptions C08_int_to_string_injective.
(** The VM's string instructions compute the same functions. *)
Theorem C08_bytecode_strings :
  forall s s1 s2 idx start len c i st,
    vm_str StringLen (MStr s :: st) = Some (MInt (str_len s) :: st) /\
    vm_str StringConcat (MStr s2 :: MStr s1 :: st) = Some (MStr (s1 ++ s2) :: st) /\
    vm_str StringCharAt (MStr s :: MInt idx :: st) = Some (MInt (str_char_at idx s) :: st) /\
    vm_str StringSubstring (MStr s :: MInt len :: MInt start :: st) = Some (MStr (str_substring start len s) :: st) /\
    vm_str StringFromChar (MInt c :: st) = Some (MStr (str_from_char c) :: st) /\
    vm_str IntToString (MInt i :: st) = Some (MStr (int_to_string i) :: st).
Proof. exact vm_str_spec. Qed.
Print Assumptions C08_bytecode_strings.
Example C08_cases :
  str_substring 1 100 [97; 98; 99]%N = [98; 99]%N /\ str_substring 4 1 [97; 98; 99]%N = [] /\
  str_char_at 3 [97; 98; 99]%N = 0%N /\ str_from_char 353 = [97%N] /\
  int_to_string 18446744073709551615 =
    [49;56;52;52;54;55;52;52;48;55;51;55;48;57;53;53;49;54;49;53]%N.
Proof. repeat split. Qed.
