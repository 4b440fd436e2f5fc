(** The library as a whole: running a program that imports it binds every name of the library to a value that
    meets its specification. *)
From Verif Require Import GenFacts EvalFacts Orders SrcFlat StdTac StdList StdOpt StdString StdInt StdArray.
Set Implicit Arguments.

Section All.
  Variable o : order.
  Variable tys : stypes.
  Notation evals := (evals o tys).
  (** Running items, with every bound on nested calls that is large enough. *)
  Definition runs (en : senv) (is : list item) (en' : senv) : Prop :=
    exists n0, forall n, n0 <= n -> srun o tys n en is = Ok en'.
  Definition ends_with (P : senv -> Prop) (en : senv) (is : list item) : Prop := exists E, runs en is E /\ P E.
  Lemma ends_nil (P : senv -> Prop) en : P en -> ends_with P en [].
  Proof. intros H. exists en. split; auto. exists 0. auto. Qed.
  Lemma ends_val P en x vs t ex e is (S : sval -> Prop) : (exists v, evals en e v /\ S v) ->
    (forall v, S v -> ends_with P ((x, v) :: en) is) -> ends_with P en (IVal x vs t ex (inr e) :: is).
  Proof.
    intros (v & [n1 H1] & Hv) H. destruct (H v Hv) as (E & [n2 H2] & HP). exists E. split; auto. exists (n1 + n2). intros n Hn.
    cbn [srun srun_item]. rewrite (@seval_up o tys n1 n _ _ _ ltac:(lia) H1). cbn [bind]. apply H2. lia.
  Qed.
  Lemma ends_ty P en x ps cases is : ends_with P (fold_left (fun en c => (fst c, match snd c with
                                         | [] => WCon false (fst c) []
                                         | fs => WCtor (fst c) (length fs) []
                                         end) :: en) cases en) is -> ends_with P en (ITy x ps cases :: is).
  Proof. intros (E & [n0 H] & HP). exists E. split; auto. exists n0. intros n Hn. cbn [srun srun_item bind]. apply H. auto. Qed.
  Lemma ends_op P en x vs t ex i is : ends_with P ((x, WOp i []) :: en) is -> ends_with P en (IVal x vs t ex (inl (BStr i)) :: is).
  Proof. intros (E & [n0 H] & HP). exists E. split; auto. exists n0. intros n Hn. cbn [srun srun_item bind]. apply H. auto. Qed.
  Lemma ends_iter P en x vs t ex is : ends_with P ((x, WIter []) :: en) is -> ends_with P en (IVal x vs t ex (inl BIterate) :: is).
  Proof. intros (E & [n0 H] & HP). exists E. split; auto. exists n0. intros n Hn. cbn [srun srun_item bind]. apply H. auto. Qed.

  Definition std_ok (en : senv) : Prop := option_module o tys en /\ result_module o tys en /\ list_module o tys en /\
    string_module o tys en /\ int_module o tys en /\ array_module o tys en.

  Ltac look := lazymatch goal with |- lookup ?x ?en = _ =>
    let r := eval vm_compute in (lookup x en) in refine (_ : lookup x en = r); vm_cast_no_check (eq_refl r) end.
  Ltac hyps := repeat first [eassumption | look].
  Ltac item L := eapply ends_val; [eapply L; hyps | intros ].

  Hypothesis HT : lookup list_List tys = Some list_tbl.
  Definition std_items : list item := [it_intrinsics_iterate; it_intrinsics_stringLength; it_intrinsics_stringConcat; it_intrinsics_stringCharAt; it_intrinsics_stringSubstring; it_intrinsics_stringFromChar; it_intrinsics_intToString; ty_option_Option; it_option_map; it_option_andThen; it_option_flatten; it_option_unwrapOr; it_option_apply; it_option_isSome; it_option_isNone; ty_result_Result; it_result_map; it_result_mapErr; it_result_andThen; it_result_flatten; it_result_unwrapOr; it_result_ok; it_result_err; it_result_okOr; it_result_apply; it_result_join; ty_list_List; it_list_map; it_list_filter; it_list_sum; it_list_product; it_list_any; it_list_all; it_list_head; it_list_tail; it_list_reverse; it_list_max; it_list_min; it_list_maxBy; it_list_minBy; it_list_allSome; it_list_allOk; it_list_skip; ty_list_TakeState; it_list_take; it_list_length; it_list_foldr; it_list_foldl; it_list_repeat; it_list_filterMap; it_list_concat; ty_list_Tuple; it_list_sortBy; it_list_join; ty_list_RangeState; it_list_range; it_list_zip; it_list_flatMap; it_list_flatten; it_string_length; it_string_concat; it_string_charAt; it_string_substring; it_string_fromChar; ty_string_SplitState; it_string_split; it_string_lines; ty_string_FoldState; it_string_foldChars; ty_string_CompareState; it_string_equal; it_string_startsWith; it_string_chars; ty_string_TrimState; it_string_trim; it_string_newline; it_int_iterate; it_int_toString; ty_int_ParseState; ty_int_ParseErr; it_int_parse; it_int_min; it_int_max; ty_int_GcdState; it_int_gcd; it_int_lcm; it_int_bitXor; it_int_bitAnd; it_int_bitOr; ty_array_ArrayData; it_array_mapLeaf; it_array_mapNode; it_array_getLeaf; it_array_getNode; ty_array_Array; it_array_length; it_array_empty; it_array_new; it_array_mapIdx; it_array_get; it_array_set; it_array_toList; it_array_fromList; it_array_truncate].
  Lemma std_items_flat : fst (flat_items [] std_imports) = std_items. Proof. vm_compute. reflexivity. Qed.
  Lemma std_items_ok : ends_with std_ok [] std_items.
  Proof.
    unfold std_items.
    unfold it_intrinsics_iterate at 1. apply ends_iter.
    unfold it_intrinsics_stringLength at 1. apply ends_op.
    unfold it_intrinsics_stringConcat at 1. apply ends_op.
    unfold it_intrinsics_stringCharAt at 1. apply ends_op.
    unfold it_intrinsics_stringSubstring at 1. apply ends_op.
    unfold it_intrinsics_stringFromChar at 1. apply ends_op.
    unfold it_intrinsics_intToString at 1. apply ends_op.
    unfold ty_option_Option at 1. apply ends_ty. cbn [fold_left fst snd length].
    unfold it_option_map at 1. item option_map_ok.
    unfold it_option_andThen at 1. item option_andThen_ok.
    unfold it_option_flatten at 1. item option_flatten_ok.
    unfold it_option_unwrapOr at 1. item option_unwrapOr_ok.
    unfold it_option_apply at 1. item option_apply_ok.
    unfold it_option_isSome at 1. item option_isSome_ok.
    unfold it_option_isNone at 1. item option_isNone_ok.
    unfold ty_result_Result at 1. apply ends_ty. cbn [fold_left fst snd length].
    unfold it_result_map at 1. item result_map_ok.
    unfold it_result_mapErr at 1. item result_mapErr_ok.
    unfold it_result_andThen at 1. item result_andThen_ok.
    unfold it_result_flatten at 1. item result_flatten_ok.
    unfold it_result_unwrapOr at 1. item result_unwrapOr_ok.
    unfold it_result_ok at 1. item result_ok_ok.
    unfold it_result_err at 1. item result_err_ok.
    unfold it_result_okOr at 1. item result_okOr_ok.
    unfold it_result_apply at 1. item result_apply_ok.
    unfold it_result_join at 1. item result_join_ok.
    unfold ty_list_List at 1. apply ends_ty. cbn [fold_left fst snd length].
    unfold it_list_map at 1. item list_map_ok.
    unfold it_list_filter at 1. item list_filter_ok.
    unfold it_list_sum at 1. item list_sum_ok.
    unfold it_list_product at 1. item list_product_ok.
    unfold it_list_any at 1. item list_any_ok.
    unfold it_list_all at 1. item list_all_ok.
    unfold it_list_head at 1. item list_head_ok.
    unfold it_list_tail at 1. item list_tail_ok.
    unfold it_list_reverse at 1. item list_reverse_ok.
    unfold it_list_max at 1. item list_max_ok.
    unfold it_list_min at 1. item list_min_ok.
    unfold it_list_maxBy at 1. item list_maxBy_ok.
    unfold it_list_minBy at 1. item list_minBy_ok.
    unfold it_list_allSome at 1. item list_allSome_ok.
    unfold it_list_allOk at 1. item list_allOk_ok.
    unfold it_list_skip at 1. item list_skip_ok.
    unfold ty_list_TakeState at 1. apply ends_ty. cbn [fold_left fst snd length].
    unfold it_list_take at 1. item list_take_ok.
    unfold it_list_length at 1. item list_length_ok.
    unfold it_list_foldr at 1. item list_foldr_ok.
    unfold it_list_foldl at 1. item list_foldl_ok.
    unfold it_list_repeat at 1. item list_repeat_ok.
    unfold it_list_filterMap at 1. item list_filterMap_ok.
    unfold it_list_concat at 1. item list_concat_ok.
    unfold ty_list_Tuple at 1. apply ends_ty. cbn [fold_left fst snd length].
    unfold it_list_sortBy at 1. item list_sortBy_ok.
    unfold it_list_join at 1. item list_join_ok.
    unfold ty_list_RangeState at 1. apply ends_ty. cbn [fold_left fst snd length].
    unfold it_list_range at 1. item list_range_ok.
    unfold it_list_zip at 1. item list_zip_ok.
    unfold it_list_flatMap at 1. item list_flatMap_ok.
    unfold it_list_flatten at 1. item list_flatten_ok.
    unfold it_string_length at 1. item string_length_ok.
    unfold it_string_concat at 1. item string_concat_ok.
    unfold it_string_charAt at 1. item string_charAt_ok.
    unfold it_string_substring at 1. item string_substring_ok.
    unfold it_string_fromChar at 1. item string_fromChar_ok.
    unfold ty_string_SplitState at 1. apply ends_ty. cbn [fold_left fst snd length].
    unfold it_string_split at 1. item string_split_ok.
    unfold it_string_lines at 1. item string_lines_ok.
    unfold ty_string_FoldState at 1. apply ends_ty. cbn [fold_left fst snd length].
    unfold it_string_foldChars at 1. item string_foldChars_ok.
    unfold ty_string_CompareState at 1. apply ends_ty. cbn [fold_left fst snd length].
    unfold it_string_equal at 1. item string_equal_ok.
    unfold it_string_startsWith at 1. item string_startsWith_ok.
    unfold it_string_chars at 1. item string_chars_ok.
    unfold ty_string_TrimState at 1. apply ends_ty. cbn [fold_left fst snd length].
    unfold it_string_trim at 1. item string_trim_ok.
    unfold it_string_newline at 1. item string_newline_ok.
    unfold it_int_iterate at 1. item int_iterate_ok.
    unfold it_int_toString at 1. item int_toString_ok.
    unfold ty_int_ParseState at 1. apply ends_ty. cbn [fold_left fst snd length].
    unfold ty_int_ParseErr at 1. apply ends_ty. cbn [fold_left fst snd length].
    unfold it_int_parse at 1. item int_parse_ok.
    unfold it_int_min at 1. item int_min_ok.
    unfold it_int_max at 1. item int_max_ok.
    unfold ty_int_GcdState at 1. apply ends_ty. cbn [fold_left fst snd length].
    unfold it_int_gcd at 1. item int_gcd_ok.
    unfold it_int_lcm at 1. item int_lcm_ok.
    unfold it_int_bitXor at 1. item int_bitXor_ok.
    unfold it_int_bitAnd at 1. item int_bitAnd_ok.
    unfold it_int_bitOr at 1. item int_bitOr_ok.
    unfold ty_array_ArrayData at 1. apply ends_ty. cbn [fold_left fst snd length].
    unfold it_array_mapLeaf at 1. item array_mapLeaf_ok.
    unfold it_array_mapNode at 1. item array_mapNode_ok.
    unfold it_array_getLeaf at 1. item array_getLeaf_ok.
    unfold it_array_getNode at 1. item array_getNode_ok.
    unfold ty_array_Array at 1. apply ends_ty. cbn [fold_left fst snd length].
    unfold it_array_length at 1. eapply ends_val; [eapply array_length_ok; hyps|]. intros ? [? ?].
    unfold it_array_empty at 1. item array_empty_ok.
    unfold it_array_new at 1. item array_new_ok.
    unfold it_array_mapIdx at 1. item array_mapIdx_ok.
    unfold it_array_get at 1. item array_get_ok.
    unfold it_array_set at 1. item array_set_ok.
    unfold it_array_toList at 1. item array_toList_ok.
    unfold it_array_fromList at 1. item array_fromList_ok.
    unfold it_array_truncate at 1. item array_truncate_ok.
    apply ends_nil. unfold std_ok, option_module, result_module, list_module, string_module, int_module, array_module.
    repeat (match goal with |- _ /\ _ => split | |- has _ _ _ => eexists; split; [look | eassumption] end).
    exists (is_array o tys). repeat (match goal with |- _ /\ _ => split | |- has _ _ _ => eexists; split; [look | eassumption] end).
  Qed.
End All.

Definition std_seen : list nat := snd (flat_items [] std_imports).
Lemma flat_app l1 l2 : forall seen, flat_items seen (l1 ++ l2) = (fst (flat_items seen l1) ++ fst (flat_items (snd (flat_items seen l1)) l2), snd (flat_items (snd (flat_items seen l1)) l2)).
Proof.
  induction l1 as [|i l1 IH]; intros seen.
  - cbn [app flat_items fst snd]. destruct (flat_items seen l2); auto.
  - rewrite <- app_comm_cons, !flat_cons. cbn [fst snd]. rewrite IH. cbn [fst snd]. rewrite app_assoc. auto.
Qed.
Lemma srun_app o tys n l1 : forall en l2, srun o tys n en (l1 ++ l2) = (en' <- srun o tys n en l1 ;; srun o tys n en' l2).
Proof.
  induction l1 as [|i l1 IH]; intros en l2; auto. cbn [app srun]. destruct (srun_item o tys n en i); cbn [bind]; auto.
Qed.
Lemma types_app a b : types_of (a ++ b) = types_of a ++ types_of b.
Proof. apply flat_map_app. Qed.
Theorem std_program o rest : exists E, std_ok o (types_of (flat (std_imports ++ rest))) E /\ after_std o rest E.
Proof.
  assert (HF : flat (std_imports ++ rest) = std_items ++ fst (flat_items std_seen rest)).
  { unfold flat. rewrite flat_app. cbn [fst]. rewrite std_items_flat. auto. }
  unfold after_std. rewrite HF. destruct (@std_items_ok o (types_of (std_items ++ fst (flat_items std_seen rest)))) as (E & [n0 H] & HS).
  { rewrite types_app. generalize (types_of (fst (flat_items std_seen rest))). intros t. vm_compute. reflexivity. }
  exists E. split; auto. exists n0. intros n Hn. unfold run_source. rewrite HF, srun_app, (H n Hn). cbn [bind]. auto.
Qed.
