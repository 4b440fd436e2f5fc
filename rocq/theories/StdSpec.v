(** Specification for C40 and C45-C47: what the functions of the standard library do, in terms of numbers,
    lists of values and strings.  [calls f [a; b] r] says that [f] applied to [a] and then to [b] gives [r] (for
    every bound on nested calls that is large enough). *)
From Verif Require Export SrcSem SrcBig StdLib.
From Coq Require Export Permutation Sorted.
Set Implicit Arguments.

(** Values of the library's types. *)
Definition wnil : sval := WCon false list_Nil [].
Definition wcons (x l : sval) : sval := WCon false list_Cons [x; l].
Definition of_list (l : list sval) : sval := fold_right wcons wnil l.
Definition of_ints (l : list N) : sval := of_list (map WInt l).
Definition of_strings (l : list bytes) : sval := of_list (map WStr l).
Definition of_option (x : option sval) : sval :=
  match x with None => WCon false option_None [] | Some v => WCon false option_Some [v] end.
Definition of_result (x : sval + sval) : sval :=
  match x with inl v => WCon false result_Ok [v] | inr e => WCon false result_Err [e] end.
Definition parse_err : sval := WCon false int_ParseErr2 [].

Fixpoint intercalate {A} (sep : list A) (l : list (list A)) : list A :=
  match l with
  | [] => []
  | [x] => x
  | x :: r => x ++ sep ++ intercalate sep r
  end.
(** The numbers from [a], [n] of them. *)
Fixpoint count_from (a : N) (n : nat) : list N := match n with O => [] | S k => a :: count_from (a + 1)%N k end.

(** [parts] is what [s] consists of between the occurrences of [c]. *)
Definition parts_of (c : N) (s : bytes) (parts : list bytes) : Prop :=
  parts <> [] /\ intercalate [c] parts = s /\ forall p, In p parts -> ~ In c p.
(** A line without the carriage return before its end. *)
Definition strip_cr (l : bytes) : bytes := match rev l with c :: r => if N.eqb c 13 then rev r else l | [] => l end.
(** Fibonacci numbers. *)
Fixpoint fib_from (a b : N) (n : nat) : N := match n with O => a | S k => fib_from b (a + b) k end.
Definition fib (n : nat) : N := fib_from 0 1 n.
Definition decimal (s : bytes) : N := fold_left (fun acc c => acc * 10 + (c - 48))%N s 0%N.
Definition digits (s : bytes) : Prop := Forall (fun c => 48 <= c <= 57)%N s.

Section Spec.
  Variable o : order.
  Variable tys : stypes.
  Notation calls := (calls o tys).
  Notation call := (call o tys).
  (** A value that answers [p] on the members of a list. *)
  Definition decides (f : sval) (xs : list sval) (p : sval -> bool) : Prop := forall x, In x xs -> call f x (WBool (p x)).
  Definition compares (f : sval) (xs : list sval) (lt : sval -> sval -> bool) : Prop :=
    forall x y, In x xs -> In y xs -> calls f [x; y] (WBool (lt x y)).
  Fixpoint folds_right (f init : sval) (xs : list sval) (r : sval) : Prop :=
    match xs with [] => r = init | x :: l => exists w, folds_right f init l w /\ calls f [x; w] r end.
  Fixpoint folds_left (f acc : sval) (xs : list sval) (r : sval) : Prop :=
    match xs with [] => r = acc | x :: l => exists w, calls f [acc; x] w /\ folds_left f w l r end.

  (** std/list.tic *)
  Definition list_map_spec v := forall f xs ys, Forall2 (call f) xs ys -> calls v [f; of_list xs] (of_list ys).
  Definition list_filter_spec v := forall f p xs, decides f xs p -> calls v [f; of_list xs] (of_list (filter p xs)).
  Definition list_sum_spec v := forall ns, calls v [of_ints ns] (WInt (fold_right N.add 0%N ns mod 2 ^ 64)).
  Definition list_product_spec v := forall ns, calls v [of_ints ns] (WInt (fold_right N.mul 1%N ns mod 2 ^ 64)).
  Definition list_any_spec v := forall bs, calls v [of_list (map WBool bs)] (WBool (existsb (fun b => b) bs)).
  Definition list_all_spec v := forall bs, calls v [of_list (map WBool bs)] (WBool (forallb (fun b => b) bs)).
  Definition list_head_spec v := forall xs, calls v [of_list xs] (of_option (hd_error xs)).
  Definition list_tail_spec v := forall xs, calls v [of_list xs] (of_option match xs with [] => None | _ :: r => Some (of_list r) end).
  Definition list_reverse_spec v := forall xs, calls v [of_list xs] (of_list (rev xs)).
  Definition list_max_spec v := calls v [of_ints []] (of_option None) /\
    forall ns m, In m ns -> (forall n, In n ns -> (n <= m)%N) -> calls v [of_ints ns] (of_option (Some (WInt m))).
  Definition list_min_spec v := calls v [of_ints []] (of_option None) /\
    forall ns m, In m ns -> (forall n, In n ns -> (m <= n)%N) -> calls v [of_ints ns] (of_option (Some (WInt m))).
  (** [lt] orders values: what is not before the middle and not after it ... *)
  Definition ordering (lt : sval -> sval -> bool) : Prop :=
    (forall x y, lt x y = true -> lt y x = false) /\
    (forall x y z, lt x y = false -> lt y z = false -> lt x z = false).
  Definition list_maxBy_spec v := forall f lt xs, compares f xs lt -> ordering lt ->
    match xs with
    | [] => calls v [f; of_list xs] (of_option None)
    | _ => exists m, In m xs /\ (forall x, In x xs -> lt m x = false) /\ calls v [f; of_list xs] (of_option (Some m))
    end.
  Definition list_minBy_spec v := forall f lt xs, compares f xs lt -> ordering lt ->
    match xs with
    | [] => calls v [f; of_list xs] (of_option None)
    | _ => exists m, In m xs /\ (forall x, In x xs -> lt x m = false) /\ calls v [f; of_list xs] (of_option (Some m))
    end.
  Definition list_allSome_spec v :=
    (forall xs, calls v [of_list (map (fun x => of_option (Some x)) xs)] (of_option (Some (of_list xs)))) /\
    (forall xs, In None xs -> calls v [of_list (map of_option xs)] (of_option None)).
  Definition list_allOk_spec v :=
    (forall xs, calls v [of_list (map (fun x => of_result (inl x)) xs)] (of_result (inl (of_list xs)))) /\
    (forall xs e rest, calls v [of_list (map of_result (map inl xs ++ inr e :: rest))] (of_result (inr e))).
  Definition list_skip_spec v := forall n xs, (n < 2 ^ 64)%N -> calls v [WInt n; of_list xs] (of_list (skipn (N.to_nat n) xs)).
  Definition list_take_spec v := forall n xs, (n < 2 ^ 64)%N -> calls v [WInt n; of_list xs] (of_list (firstn (N.to_nat n) xs)).
  Definition list_length_spec v := forall xs, calls v [of_list xs] (WInt (N.of_nat (length xs) mod 2 ^ 64)).
  Definition list_foldr_spec v := forall f init xs r, folds_right f init xs r -> calls v [f; init; of_list xs] r.
  Definition list_foldl_spec v := forall f init xs r, folds_left f init xs r -> calls v [init; f; of_list xs] r.
  Definition list_repeat_spec v := forall n x, (n < 2 ^ 64)%N -> calls v [WInt n; x] (of_list (repeat x (N.to_nat n))).
  Definition list_filterMap_spec v := forall f xs ys, Forall2 (fun x y => call f x (of_option y)) xs ys ->
    calls v [f; of_list xs] (of_list (flat_map (fun y => match y with Some z => [z] | None => [] end) ys)).
  Definition list_concat_spec v := forall xs ys, calls v [of_list xs; of_list ys] (of_list (xs ++ ys)).
  Definition list_sortBy_spec v := forall f lt xs, compares f xs lt -> ordering lt -> (N.of_nat (length xs) < 2 ^ 64)%N ->
    exists ys, Permutation xs ys /\ StronglySorted (fun x y => lt y x = false) ys /\ calls v [f; of_list xs] (of_list ys).
  Definition list_join_spec v := forall sep ss, calls v [WStr sep; of_strings ss] (WStr (intercalate sep ss)).
  (** With the stop before the start, the count goes around. *)
  Definition list_range_spec v := (forall a b, (a <= b)%N -> (b < 2 ^ 64)%N ->
    calls v [WInt a; WInt b] (of_ints (count_from a (N.to_nat (b - a))))) /\
    (forall a b, (b < a)%N -> (a < 2 ^ 64)%N -> exists ns, N.of_nat (length ns) = (2 ^ 64 - (a - b))%N /\ calls v [WInt a; WInt b] (of_ints ns)).
  Definition list_zip_spec v := forall f xs ys zs, Forall2 (fun p z => calls f [fst p; snd p] z) (combine xs ys) zs ->
    calls v [f; of_list xs; of_list ys] (of_list zs).
  Definition list_flatMap_spec v := forall f xs yss, Forall2 (fun x ys => call f x (of_list ys)) xs yss ->
    calls v [f; of_list xs] (of_list (concat yss)).
  Definition list_flatten_spec v := forall xss, calls v [of_list (map of_list xss)] (of_list (concat xss)).

  (** std/option.tic *)
  Definition option_map_spec v := (forall f x y, call f x y -> calls v [f; of_option (Some x)] (of_option (Some y))) /\
    forall f, calls v [f; of_option None] (of_option None).
  Definition option_andThen_spec v := (forall f x y, call f x y -> calls v [f; of_option (Some x)] y) /\
    forall f, calls v [f; of_option None] (of_option None).
  Definition option_flatten_spec v := (forall x, calls v [of_option (Some (of_option x))] (of_option x)) /\ calls v [of_option None] (of_option None).
  Definition option_unwrapOr_spec v := forall d x, calls v [d; of_option x] match x with Some w => w | None => d end.
  Definition option_apply_spec v := (forall f x y, call f x y -> calls v [of_option (Some x); of_option (Some f)] (of_option (Some y))) /\
    (forall f, calls v [of_option None; of_option (Some f)] (of_option None)) /\ (forall x, calls v [of_option x; of_option None] (of_option None)).
  Definition option_isSome_spec v := forall x, calls v [of_option x] (WBool match x with Some _ => true | None => false end).
  Definition option_isNone_spec v := forall x, calls v [of_option x] (WBool match x with Some _ => false | None => true end).

  (** std/result.tic *)
  Definition result_map_spec v := (forall f x y, call f x y -> calls v [f; of_result (inl x)] (of_result (inl y))) /\
    forall f e, calls v [f; of_result (inr e)] (of_result (inr e)).
  Definition result_mapErr_spec v := (forall f x y, call f x y -> calls v [f; of_result (inr x)] (of_result (inr y))) /\
    forall f e, calls v [f; of_result (inl e)] (of_result (inl e)).
  Definition result_andThen_spec v := (forall f x y, call f x y -> calls v [f; of_result (inl x)] y) /\
    forall f e, calls v [f; of_result (inr e)] (of_result (inr e)).
  Definition result_flatten_spec v := (forall x, calls v [of_result (inl (of_result x))] (of_result x)) /\
    forall e, calls v [of_result (inr e)] (of_result (inr e)).
  Definition result_unwrapOr_spec v := forall d x, calls v [d; of_result x] match x with inl w => w | inr _ => d end.
  Definition result_ok_spec v := forall x, calls v [of_result x] (of_option match x with inl w => Some w | inr _ => None end).
  Definition result_err_spec v := forall x, calls v [of_result x] (of_option match x with inl _ => None | inr e => Some e end).
  Definition result_okOr_spec v := forall e x, calls v [e; of_option x] (of_result match x with Some w => inl w | None => inr e end).
  Definition result_apply_spec v := (forall f x y, call f x y -> calls v [of_result (inl x); of_result (inl f)] (of_result (inl y))) /\
    (forall f e, calls v [of_result (inr e); of_result (inl f)] (of_result (inr e))) /\ (forall x e, calls v [of_result x; of_result (inr e)] (of_result (inr e))).
  Definition result_join_spec v := forall x, calls v [of_result x] match x with inl w | inr w => w end.

  (** std/string.tic *)
  Definition short (s : bytes) : Prop := (N.of_nat (length s) < 2 ^ 64)%N.
  Definition string_length_spec v := forall s, calls v [WStr s] (WInt (N.of_nat (length s))).
  Definition string_concat_spec v := forall a b, calls v [WStr a; WStr b] (WStr (a ++ b)).
  Definition string_charAt_spec v := forall n s, calls v [WInt n; WStr s] (WInt (nth (N.to_nat n) s 0%N)).
  Definition string_substring_spec v := forall n k s, calls v [WInt n; WInt k; WStr s] (WStr (firstn (N.to_nat k) (skipn (N.to_nat n) s))).
  Definition string_fromChar_spec v := forall c, calls v [WInt c] (WStr [(c mod 256)%N]).
  Definition string_split_spec v := forall c s, short s -> exists parts, parts_of c s parts /\ calls v [WInt c; WStr s] (of_strings parts).
  Definition string_lines_spec v := forall s, short s -> exists first last, parts_of 10 s (first ++ [last]) /\
    calls v [WStr s] (of_strings (map strip_cr first ++ match last with [] => [] | _ => [last] end)).
  Definition string_foldChars_spec v := forall f init s r, short s -> folds_left f init (map WInt s) r -> calls v [init; f; WStr s] r.
  Definition string_equal_spec v := forall a b, short a -> short b -> exists t, calls v [WStr a; WStr b] (WBool t) /\ (t = true <-> a = b).
  Definition string_startsWith_spec v := forall p s, short s -> exists t, calls v [WStr p; WStr s] (WBool t) /\ (t = true <-> exists r, s = p ++ r).
  Definition string_chars_spec v := forall s, short s -> calls v [WStr s] (of_ints s).
  Definition string_trim_spec v := forall s, short s -> exists a b m, s = repeat 32%N a ++ m ++ repeat 32%N b /\
    (forall r, m <> 32%N :: r) /\ (forall r, m <> r ++ [32%N]) /\ calls v [WStr s] (WStr m).
  Definition string_newline_spec (v : sval) := v = WStr [10%N].

  (** std/int.tic *)
  Definition int_iterate_spec v := forall n f x r, (n < 2 ^ 64)%N -> iters o tys f (N.to_nat n) x r -> calls v [WInt n; f; x] r.
  Definition int_toString_spec v := forall n, exists s, digits s /\ s <> [] /\ decimal s = n /\
    (forall r, s = 48%N :: r -> r = []) /\ calls v [WInt n] (WStr s).
  Definition int_parse_spec v :=
    (forall s, short s -> s <> [] -> digits s -> calls v [WStr s] (of_result (inl (WInt (decimal s mod 2 ^ 64))))) /\
    (forall s, short s -> s = [] \/ ~ digits s -> calls v [WStr s] (of_result (inr parse_err))).
  Definition int_min_spec v := forall a b, calls v [WInt a; WInt b] (WInt (N.min a b)).
  Definition int_max_spec v := forall a b, calls v [WInt a; WInt b] (WInt (N.max a b)).
  Definition int_gcd_spec v := (forall a b, (b < fib 67)%N -> calls v [WInt a; WInt b] (WInt (N.gcd a b))) /\
    calls v [WInt (fib 68); WInt (fib 67)] (WInt 2).
  Definition int_lcm_spec v := forall a b, (b < fib 67)%N -> (N.lcm a b < 2 ^ 64)%N -> calls v [WInt a; WInt b] (WInt (N.lcm a b)).
  Definition int_bitAnd_spec v := forall a b, (a < 2 ^ 64)%N -> (b < 2 ^ 64)%N -> calls v [WInt a; WInt b] (WInt (N.land a b)).
  Definition int_bitOr_spec v := forall a b, (a < 2 ^ 64)%N -> (b < 2 ^ 64)%N -> calls v [WInt a; WInt b] (WInt (N.lor a b)).
  Definition int_bitXor_spec v := forall a b, (a < 2 ^ 64)%N -> (b < 2 ^ 64)%N -> calls v [WInt a; WInt b] (WInt (N.lxor a b)).

  (** std/array.tic: [R a xs] says that [a] is an array with the elements [xs]; which values are arrays is up to
      the library, what can be done with them is not. *)
  Section Arrays.
    Variable R : sval -> list sval -> Prop.
    Definition replace_nth (i : nat) (x : sval) (xs : list sval) : list sval :=
      if i <? length xs then firstn i xs ++ x :: skipn (S i) xs else xs.
    Definition array_empty_spec (v : sval) := R v [].
    Definition array_new_spec v := forall n x, (n < 2 ^ 64)%N -> exists a, calls v [WInt n; x] a /\ R a (repeat x (N.to_nat n)).
    Definition array_length_spec v := forall a xs, R a xs -> calls v [a] (WInt (N.of_nat (length xs))).
    Definition array_get_spec v := forall a xs i, R a xs -> (i < 2 ^ 64)%N -> calls v [WInt i; a] (of_option (nth_error xs (N.to_nat i))).
    Definition array_set_spec v := forall a xs i x, R a xs -> (i < 2 ^ 64)%N ->
      exists a', calls v [WInt i; x; a] a' /\ R a' (replace_nth (N.to_nat i) x xs).
    Definition array_mapIdx_spec v := forall a xs i f, R a xs -> (i < 2 ^ 64)%N ->
      match nth_error xs (N.to_nat i) with
      | Some x => forall y, call f x y -> exists a', calls v [WInt i; f; a] a' /\ R a' (replace_nth (N.to_nat i) y xs)
      | None => exists a', calls v [WInt i; f; a] a' /\ R a' xs
      end.
    Definition array_toList_spec v := forall a xs, R a xs -> calls v [a] (of_list xs).
    Definition array_fromList_spec v := forall xs, (N.of_nat (length xs) < 2 ^ 64)%N -> exists a, calls v [of_list xs] a /\ R a xs.
    Definition array_truncate_spec v := forall a xs n, R a xs -> exists a', calls v [WInt n; a] a' /\ R a' (firstn (N.to_nat n) xs).
  End Arrays.
End Spec.

(** What the environment [en] has under the name [f] meets [spec]. *)
Definition has (en : senv) (f : sym) (spec : sval -> Prop) : Prop := exists v, lookup f en = Some v /\ spec v.
Definition option_module (o : order) (tys : stypes) (en : senv) : Prop :=
  has en option_map (option_map_spec o tys) /\
  has en option_andThen (option_andThen_spec o tys) /\
  has en option_flatten (option_flatten_spec o tys) /\
  has en option_unwrapOr (option_unwrapOr_spec o tys) /\
  has en option_apply (option_apply_spec o tys) /\
  has en option_isSome (option_isSome_spec o tys) /\
  has en option_isNone (option_isNone_spec o tys).
Definition result_module (o : order) (tys : stypes) (en : senv) : Prop :=
  has en result_map (result_map_spec o tys) /\
  has en result_mapErr (result_mapErr_spec o tys) /\
  has en result_andThen (result_andThen_spec o tys) /\
  has en result_flatten (result_flatten_spec o tys) /\
  has en result_unwrapOr (result_unwrapOr_spec o tys) /\
  has en result_ok (result_ok_spec o tys) /\
  has en result_err (result_err_spec o tys) /\
  has en result_okOr (result_okOr_spec o tys) /\
  has en result_apply (result_apply_spec o tys) /\
  has en result_join (result_join_spec o tys).
Definition list_module (o : order) (tys : stypes) (en : senv) : Prop :=
  has en list_map (list_map_spec o tys) /\
  has en list_filter (list_filter_spec o tys) /\
  has en list_sum (list_sum_spec o tys) /\
  has en list_product (list_product_spec o tys) /\
  has en list_any (list_any_spec o tys) /\
  has en list_all (list_all_spec o tys) /\
  has en list_head (list_head_spec o tys) /\
  has en list_tail (list_tail_spec o tys) /\
  has en list_reverse (list_reverse_spec o tys) /\
  has en list_max (list_max_spec o tys) /\
  has en list_min (list_min_spec o tys) /\
  has en list_maxBy (list_maxBy_spec o tys) /\
  has en list_minBy (list_minBy_spec o tys) /\
  has en list_allSome (list_allSome_spec o tys) /\
  has en list_allOk (list_allOk_spec o tys) /\
  has en list_skip (list_skip_spec o tys) /\
  has en list_take (list_take_spec o tys) /\
  has en list_length (list_length_spec o tys) /\
  has en list_foldr (list_foldr_spec o tys) /\
  has en list_foldl (list_foldl_spec o tys) /\
  has en list_repeat (list_repeat_spec o tys) /\
  has en list_filterMap (list_filterMap_spec o tys) /\
  has en list_concat (list_concat_spec o tys) /\
  has en list_sortBy (list_sortBy_spec o tys) /\
  has en list_join (list_join_spec o tys) /\
  has en list_range (list_range_spec o tys) /\
  has en list_zip (list_zip_spec o tys) /\
  has en list_flatMap (list_flatMap_spec o tys) /\
  has en list_flatten (list_flatten_spec o tys).
Definition string_module (o : order) (tys : stypes) (en : senv) : Prop :=
  has en string_length (string_length_spec o tys) /\
  has en string_concat (string_concat_spec o tys) /\
  has en string_charAt (string_charAt_spec o tys) /\
  has en string_substring (string_substring_spec o tys) /\
  has en string_fromChar (string_fromChar_spec o tys) /\
  has en string_split (string_split_spec o tys) /\
  has en string_lines (string_lines_spec o tys) /\
  has en string_foldChars (string_foldChars_spec o tys) /\
  has en string_equal (string_equal_spec o tys) /\
  has en string_startsWith (string_startsWith_spec o tys) /\
  has en string_chars (string_chars_spec o tys) /\
  has en string_trim (string_trim_spec o tys) /\
  has en string_newline string_newline_spec.
Definition int_module (o : order) (tys : stypes) (en : senv) : Prop :=
  has en int_iterate (int_iterate_spec o tys) /\
  has en int_toString (int_toString_spec o tys) /\
  has en int_parse (int_parse_spec o tys) /\
  has en int_min (int_min_spec o tys) /\
  has en int_max (int_max_spec o tys) /\
  has en int_gcd (int_gcd_spec o tys) /\
  has en int_lcm (int_lcm_spec o tys) /\
  has en int_bitXor (int_bitXor_spec o tys) /\
  has en int_bitAnd (int_bitAnd_spec o tys) /\
  has en int_bitOr (int_bitOr_spec o tys).
Definition array_module (o : order) (tys : stypes) (en : senv) : Prop :=
  exists R : sval -> list sval -> Prop,
  has en array_length (array_length_spec o tys R) /\
  has en array_empty (array_empty_spec R) /\
  has en array_new (array_new_spec o tys R) /\
  has en array_mapIdx (array_mapIdx_spec o tys R) /\
  has en array_get (array_get_spec o tys R) /\
  has en array_set (array_set_spec o tys R) /\
  has en array_toList (array_toList_spec o tys R) /\
  has en array_fromList (array_fromList_spec o tys R) /\
  has en array_truncate (array_truncate_spec o tys R).


(** A program that imports the library first, and then does [rest]: [E] is the environment the rest starts in. *)
Definition after_std (o : order) (rest : list item) (E : senv) : Prop :=
  exists n0, forall n, n0 <= n ->
    run_source o n (std_imports ++ rest) =
    srun o (types_of (flat (std_imports ++ rest))) n E (fst (flat_items (snd (flat_items [] std_imports)) rest)).
Definition std_types (rest : list item) : stypes := types_of (flat (std_imports ++ rest)).
