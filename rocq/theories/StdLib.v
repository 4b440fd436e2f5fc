(** The standard library (ticc/src/std/*.tic) as annotated source.  Generated by tools/std2coq.py, which ports
    the parser, the name resolver and the type checker for the part of the language used here; every item cites
    the lines it comes from.  Symbols are numbered in the order of their binders. *)
From Verif Require Export GenCore.
Set Implicit Arguments.

Definition intrinsics_iterate_a : sym := 0.
Definition intrinsics_iterate : sym := 1.
Definition intrinsics_stringLength : sym := 2.
Definition intrinsics_stringConcat : sym := 3.
Definition intrinsics_stringCharAt : sym := 4.
Definition intrinsics_stringSubstring : sym := 5.
Definition intrinsics_stringFromChar : sym := 6.
Definition intrinsics_intToString : sym := 7.
Definition option_Option : sym := 8.
Definition option_Option_a : sym := 9.
Definition option_None : sym := 10.
Definition option_Some : sym := 11.
Definition option_map_a : sym := 12.
Definition option_map_b : sym := 13.
Definition option_map_f : sym := 14.
Definition option_map_opt : sym := 15.
Definition option_map_x : sym := 16.
Definition option_map : sym := 17.
Definition option_andThen_a : sym := 18.
Definition option_andThen_b : sym := 19.
Definition option_andThen_f : sym := 20.
Definition option_andThen_opt : sym := 21.
Definition option_andThen_x : sym := 22.
Definition option_andThen : sym := 23.
Definition option_flatten_a : sym := 24.
Definition option_flatten_opt : sym := 25.
Definition option_flatten_x : sym := 26.
Definition option_flatten : sym := 27.
Definition option_unwrapOr_a : sym := 28.
Definition option_unwrapOr_default : sym := 29.
Definition option_unwrapOr_opt : sym := 30.
Definition option_unwrapOr_x : sym := 31.
Definition option_unwrapOr : sym := 32.
Definition option_apply_a : sym := 33.
Definition option_apply_b : sym := 34.
Definition option_apply_x : sym := 35.
Definition option_apply_f : sym := 36.
Definition option_apply_f2 : sym := 37.
Definition option_apply : sym := 38.
Definition option_isSome_a : sym := 39.
Definition option_isSome_opt : sym := 40.
Definition option_isSome__ : sym := 41.
Definition option_isSome : sym := 42.
Definition option_isNone_a : sym := 43.
Definition option_isNone_opt : sym := 44.
Definition option_isNone__ : sym := 45.
Definition option_isNone : sym := 46.
Definition result_Result : sym := 47.
Definition result_Result_t : sym := 48.
Definition result_Result_e : sym := 49.
Definition result_Ok : sym := 50.
Definition result_Err : sym := 51.
Definition result_map_a : sym := 52.
Definition result_map_b : sym := 53.
Definition result_map_e : sym := 54.
Definition result_map_f : sym := 55.
Definition result_map_r : sym := 56.
Definition result_map_x : sym := 57.
Definition result_map_e2 : sym := 58.
Definition result_map : sym := 59.
Definition result_mapErr_a : sym := 60.
Definition result_mapErr_b : sym := 61.
Definition result_mapErr_t : sym := 62.
Definition result_mapErr_f : sym := 63.
Definition result_mapErr_r : sym := 64.
Definition result_mapErr_x : sym := 65.
Definition result_mapErr_e : sym := 66.
Definition result_mapErr : sym := 67.
Definition result_andThen_a : sym := 68.
Definition result_andThen_b : sym := 69.
Definition result_andThen_e : sym := 70.
Definition result_andThen_f : sym := 71.
Definition result_andThen_r : sym := 72.
Definition result_andThen_x : sym := 73.
Definition result_andThen_e2 : sym := 74.
Definition result_andThen : sym := 75.
Definition result_flatten_a : sym := 76.
Definition result_flatten_e : sym := 77.
Definition result_flatten_r : sym := 78.
Definition result_flatten_x : sym := 79.
Definition result_flatten_e2 : sym := 80.
Definition result_flatten : sym := 81.
Definition result_unwrapOr_a : sym := 82.
Definition result_unwrapOr_e : sym := 83.
Definition result_unwrapOr_default : sym := 84.
Definition result_unwrapOr_r : sym := 85.
Definition result_unwrapOr__ : sym := 86.
Definition result_unwrapOr_x : sym := 87.
Definition result_unwrapOr : sym := 88.
Definition result_ok_a : sym := 89.
Definition result_ok_e : sym := 90.
Definition result_ok_r : sym := 91.
Definition result_ok_x : sym := 92.
Definition result_ok__ : sym := 93.
Definition result_ok : sym := 94.
Definition result_err_a : sym := 95.
Definition result_err_e : sym := 96.
Definition result_err_r : sym := 97.
Definition result_err__ : sym := 98.
Definition result_err_e2 : sym := 99.
Definition result_err : sym := 100.
Definition result_okOr_e : sym := 101.
Definition result_okOr_a : sym := 102.
Definition result_okOr_e2 : sym := 103.
Definition result_okOr_opt : sym := 104.
Definition result_okOr_x : sym := 105.
Definition result_okOr : sym := 106.
Definition result_apply_a : sym := 107.
Definition result_apply_e : sym := 108.
Definition result_apply_b : sym := 109.
Definition result_apply_x : sym := 110.
Definition result_apply_f : sym := 111.
Definition result_apply_e2 : sym := 112.
Definition result_apply_f2 : sym := 113.
Definition result_apply : sym := 114.
Definition result_join_a : sym := 115.
Definition result_join_x : sym := 116.
Definition result_join_x2 : sym := 117.
Definition result_join_x3 : sym := 118.
Definition result_join : sym := 119.
Definition list_List : sym := 120.
Definition list_List_a : sym := 121.
Definition list_Nil : sym := 122.
Definition list_Cons : sym := 123.
Definition list_map_a : sym := 124.
Definition list_map_b : sym := 125.
Definition list_map_f : sym := 126.
Definition list_map_list : sym := 127.
Definition list_map_x : sym := 128.
Definition list_map_xs : sym := 129.
Definition list_map : sym := 130.
Definition list_filter_a : sym := 131.
Definition list_filter_f : sym := 132.
Definition list_filter_list : sym := 133.
Definition list_filter_x : sym := 134.
Definition list_filter_xs : sym := 135.
Definition list_filter : sym := 136.
Definition list_sum_list : sym := 137.
Definition list_sum_x : sym := 138.
Definition list_sum_xs : sym := 139.
Definition list_sum : sym := 140.
Definition list_product_list : sym := 141.
Definition list_product_x : sym := 142.
Definition list_product_xs : sym := 143.
Definition list_product : sym := 144.
Definition list_any_list : sym := 145.
Definition list_any_x : sym := 146.
Definition list_any_xs : sym := 147.
Definition list_any : sym := 148.
Definition list_all_list : sym := 149.
Definition list_all_x : sym := 150.
Definition list_all_xs : sym := 151.
Definition list_all : sym := 152.
Definition list_head_a : sym := 153.
Definition list_head_list : sym := 154.
Definition list_head_x : sym := 155.
Definition list_head__ : sym := 156.
Definition list_head : sym := 157.
Definition list_tail_a : sym := 158.
Definition list_tail_list : sym := 159.
Definition list_tail__ : sym := 160.
Definition list_tail_xs : sym := 161.
Definition list_tail : sym := 162.
Definition list_reverse_a : sym := 163.
Definition list_reverse_list : sym := 164.
Definition list_reverse_list2 : sym := 165.
Definition list_reverse_acc : sym := 166.
Definition list_reverse_x : sym := 167.
Definition list_reverse_xs : sym := 168.
Definition list_reverse_go : sym := 169.
Definition list_reverse : sym := 170.
Definition list_max_list : sym := 171.
Definition list_max_x : sym := 172.
Definition list_max_res : sym := 173.
Definition list_max_y : sym := 174.
Definition list_max : sym := 175.
Definition list_min_list : sym := 176.
Definition list_min_x : sym := 177.
Definition list_min_res : sym := 178.
Definition list_min_y : sym := 179.
Definition list_min : sym := 180.
Definition list_maxBy_a : sym := 181.
Definition list_maxBy_less : sym := 182.
Definition list_maxBy_list : sym := 183.
Definition list_maxBy_x : sym := 184.
Definition list_maxBy_res : sym := 185.
Definition list_maxBy_y : sym := 186.
Definition list_maxBy : sym := 187.
Definition list_minBy_a : sym := 188.
Definition list_minBy_less : sym := 189.
Definition list_minBy_list : sym := 190.
Definition list_minBy_x : sym := 191.
Definition list_minBy_res : sym := 192.
Definition list_minBy_y : sym := 193.
Definition list_minBy : sym := 194.
Definition list_allSome_a : sym := 195.
Definition list_allSome_list : sym := 196.
Definition list_allSome_x : sym := 197.
Definition list_allSome_xs : sym := 198.
Definition list_allSome_x2 : sym := 199.
Definition list_allSome_xs2 : sym := 200.
Definition list_allSome : sym := 201.
Definition list_allOk_a : sym := 202.
Definition list_allOk_e : sym := 203.
Definition list_allOk_list : sym := 204.
Definition list_allOk_x : sym := 205.
Definition list_allOk_xs : sym := 206.
Definition list_allOk_e2 : sym := 207.
Definition list_allOk_x2 : sym := 208.
Definition list_allOk_e3 : sym := 209.
Definition list_allOk_xs2 : sym := 210.
Definition list_allOk : sym := 211.
Definition list_skip_a : sym := 212.
Definition list_skip_x : sym := 213.
Definition list_skip_list : sym := 214.
Definition list_skip_l : sym := 215.
Definition list_skip__ : sym := 216.
Definition list_skip_xs : sym := 217.
Definition list_skip_step : sym := 218.
Definition list_skip : sym := 219.
Definition list_TakeState : sym := 220.
Definition list_TakeState_a : sym := 221.
Definition list_TakeState2 : sym := 222.
Definition list_take_a : sym := 223.
Definition list_take_x : sym := 224.
Definition list_take_list : sym := 225.
Definition list_take_state : sym := 226.
Definition list_take_a2 : sym := 227.
Definition list_take_b : sym := 228.
Definition list_take_x2 : sym := 229.
Definition list_take_xs : sym := 230.
Definition list_take_step : sym := 231.
Definition list_take_a3 : sym := 232.
Definition list_take__ : sym := 233.
Definition list_take : sym := 234.
Definition list_length_a : sym := 235.
Definition list_length_list : sym := 236.
Definition list_length__ : sym := 237.
Definition list_length_xs : sym := 238.
Definition list_length : sym := 239.
Definition list_foldr_a : sym := 240.
Definition list_foldr_b : sym := 241.
Definition list_foldr_f : sym := 242.
Definition list_foldr_init : sym := 243.
Definition list_foldr_list : sym := 244.
Definition list_foldr_x : sym := 245.
Definition list_foldr_xs : sym := 246.
Definition list_foldr : sym := 247.
Definition list_foldl_b : sym := 248.
Definition list_foldl_a : sym := 249.
Definition list_foldl_f : sym := 250.
Definition list_foldl_list : sym := 251.
Definition list_foldl_acc : sym := 252.
Definition list_foldl_x : sym := 253.
Definition list_foldl_xs : sym := 254.
Definition list_foldl_go : sym := 255.
Definition list_foldl_init : sym := 256.
Definition list_foldl_f2 : sym := 257.
Definition list_foldl_list2 : sym := 258.
Definition list_foldl : sym := 259.
Definition list_repeat_a : sym := 260.
Definition list_repeat_count : sym := 261.
Definition list_repeat_value : sym := 262.
Definition list_repeat : sym := 263.
Definition list_filterMap_a : sym := 264.
Definition list_filterMap_b : sym := 265.
Definition list_filterMap_f : sym := 266.
Definition list_filterMap_list : sym := 267.
Definition list_filterMap_x : sym := 268.
Definition list_filterMap_xs : sym := 269.
Definition list_filterMap_x2 : sym := 270.
Definition list_filterMap : sym := 271.
Definition list_concat_a : sym := 272.
Definition list_concat_b : sym := 273.
Definition list_concat_a2 : sym := 274.
Definition list_concat_x : sym := 275.
Definition list_concat_xs : sym := 276.
Definition list_concat_helper : sym := 277.
Definition list_concat_a3 : sym := 278.
Definition list_concat_b2 : sym := 279.
Definition list_concat : sym := 280.
Definition list_Tuple : sym := 281.
Definition list_Tuple_a : sym := 282.
Definition list_Tuple_b : sym := 283.
Definition list_Tuple2 : sym := 284.
Definition list_sortBy_a : sym := 285.
Definition list_sortBy_merge_b : sym := 286.
Definition list_sortBy_less : sym := 287.
Definition list_sortBy_counter : sym := 288.
Definition list_sortBy_a2 : sym := 289.
Definition list_sortBy_b : sym := 290.
Definition list_sortBy__ : sym := 291.
Definition list_sortBy_recurse : sym := 292.
Definition list_sortBy_x : sym := 293.
Definition list_sortBy_xs : sym := 294.
Definition list_sortBy_y : sym := 295.
Definition list_sortBy_ys : sym := 296.
Definition list_sortBy_merge : sym := 297.
Definition list_sortBy_less2 : sym := 298.
Definition list_sortBy_a3 : sym := 299.
Definition list_sortBy_b2 : sym := 300.
Definition list_sortBy_merge2 : sym := 301.
Definition list_sortBy_list : sym := 302.
Definition list_sortBy_x2 : sym := 303.
Definition list_sortBy_xs2 : sym := 304.
Definition list_sortBy_xs3 : sym := 305.
Definition list_sortBy_ys2 : sym := 306.
Definition list_sortBy_split : sym := 307.
Definition list_sortBy_sort_b : sym := 308.
Definition list_sortBy_less3 : sym := 309.
Definition list_sortBy_counter2 : sym := 310.
Definition list_sortBy_list2 : sym := 311.
Definition list_sortBy__2 : sym := 312.
Definition list_sortBy_recurse2 : sym := 313.
Definition list_sortBy_as : sym := 314.
Definition list_sortBy_bs : sym := 315.
Definition list_sortBy_as2 : sym := 316.
Definition list_sortBy_bs2 : sym := 317.
Definition list_sortBy_sort : sym := 318.
Definition list_sortBy_less4 : sym := 319.
Definition list_sortBy_list3 : sym := 320.
Definition list_sortBy : sym := 321.
Definition list_join_sep : sym := 322.
Definition list_join_l : sym := 323.
Definition list_join_x : sym := 324.
Definition list_join_xs : sym := 325.
Definition list_join_go : sym := 326.
Definition list_join_sep2 : sym := 327.
Definition list_join_l2 : sym := 328.
Definition list_join_x2 : sym := 329.
Definition list_join_xs2 : sym := 330.
Definition list_join__ : sym := 331.
Definition list_join__2 : sym := 332.
Definition list_join : sym := 333.
Definition list_RangeState : sym := 334.
Definition list_RangeState2 : sym := 335.
Definition list_range_start : sym := 336.
Definition list_range_stop : sym := 337.
Definition list_range_state : sym := 338.
Definition list_range_i : sym := 339.
Definition list_range_acc : sym := 340.
Definition list_range_step : sym := 341.
Definition list_range_steps : sym := 342.
Definition list_range__ : sym := 343.
Definition list_range_res : sym := 344.
Definition list_range : sym := 345.
Definition list_zip_a : sym := 346.
Definition list_zip_b : sym := 347.
Definition list_zip_c : sym := 348.
Definition list_zip_f : sym := 349.
Definition list_zip_as : sym := 350.
Definition list_zip_bs : sym := 351.
Definition list_zip_a2 : sym := 352.
Definition list_zip_as2 : sym := 353.
Definition list_zip_b2 : sym := 354.
Definition list_zip_bs2 : sym := 355.
Definition list_zip : sym := 356.
Definition list_flatMap_a : sym := 357.
Definition list_flatMap_b : sym := 358.
Definition list_flatMap_f : sym := 359.
Definition list_flatMap_list : sym := 360.
Definition list_flatMap_x : sym := 361.
Definition list_flatMap_xs : sym := 362.
Definition list_flatMap : sym := 363.
Definition list_flatten_a : sym := 364.
Definition list_flatten_list : sym := 365.
Definition list_flatten_x : sym := 366.
Definition list_flatten_xs : sym := 367.
Definition list_flatten : sym := 368.
Definition string_length_s : sym := 369.
Definition string_length : sym := 370.
Definition string_concat_a : sym := 371.
Definition string_concat_b : sym := 372.
Definition string_concat : sym := 373.
Definition string_charAt_idx : sym := 374.
Definition string_charAt_s : sym := 375.
Definition string_charAt : sym := 376.
Definition string_substring_start : sym := 377.
Definition string_substring_len : sym := 378.
Definition string_substring_s : sym := 379.
Definition string_substring : sym := 380.
Definition string_fromChar_c : sym := 381.
Definition string_fromChar : sym := 382.
Definition string_SplitState : sym := 383.
Definition string_SplitState2 : sym := 384.
Definition string_split_char : sym := 385.
Definition string_split_s : sym := 386.
Definition string_split_state : sym := 387.
Definition string_split_start : sym := 388.
Definition string_split_cur : sym := 389.
Definition string_split_res : sym := 390.
Definition string_split_item : sym := 391.
Definition string_split_res2 : sym := 392.
Definition string_split_step : sym := 393.
Definition string_split_final : sym := 394.
Definition string_split_start2 : sym := 395.
Definition string_split_cur2 : sym := 396.
Definition string_split_res3 : sym := 397.
Definition string_split_item2 : sym := 398.
Definition string_split : sym := 399.
Definition string_lines_s : sym := 400.
Definition string_lines_start : sym := 401.
Definition string_lines_len : sym := 402.
Definition string_lines_line : sym := 403.
Definition string_lines_extractLine : sym := 404.
Definition string_lines_state : sym := 405.
Definition string_lines_start2 : sym := 406.
Definition string_lines_cur : sym := 407.
Definition string_lines_res : sym := 408.
Definition string_lines_item : sym := 409.
Definition string_lines_res2 : sym := 410.
Definition string_lines_step : sym := 411.
Definition string_lines_final : sym := 412.
Definition string_lines_start3 : sym := 413.
Definition string_lines_cur2 : sym := 414.
Definition string_lines_res3 : sym := 415.
Definition string_lines_item2 : sym := 416.
Definition string_lines : sym := 417.
Definition string_FoldState : sym := 418.
Definition string_FoldState_a : sym := 419.
Definition string_FoldState2 : sym := 420.
Definition string_foldChars_a : sym := 421.
Definition string_foldChars_init : sym := 422.
Definition string_foldChars_f : sym := 423.
Definition string_foldChars_s : sym := 424.
Definition string_foldChars_state : sym := 425.
Definition string_foldChars_idx : sym := 426.
Definition string_foldChars_acc : sym := 427.
Definition string_foldChars_acc2 : sym := 428.
Definition string_foldChars_step : sym := 429.
Definition string_foldChars__ : sym := 430.
Definition string_foldChars_res : sym := 431.
Definition string_foldChars : sym := 432.
Definition string_CompareState : sym := 433.
Definition string_Comparing : sym := 434.
Definition string_Unequal : sym := 435.
Definition string_equal_a : sym := 436.
Definition string_equal_b : sym := 437.
Definition string_equal_state : sym := 438.
Definition string_equal_idx : sym := 439.
Definition string_equal_step : sym := 440.
Definition string_equal__ : sym := 441.
Definition string_equal : sym := 442.
Definition string_startsWith_prefix : sym := 443.
Definition string_startsWith_s : sym := 444.
Definition string_startsWith_p : sym := 445.
Definition string_startsWith : sym := 446.
Definition string_chars_s : sym := 447.
Definition string_chars_a : sym := 448.
Definition string_chars_b : sym := 449.
Definition string_chars : sym := 450.
Definition string_TrimState : sym := 451.
Definition string_TrimStart : sym := 452.
Definition string_TrimDone : sym := 453.
Definition string_trim_s : sym := 454.
Definition string_trim_acc : sym := 455.
Definition string_trim_c : sym := 456.
Definition string_trim_trailingSpaces : sym := 457.
Definition string_trim_state : sym := 458.
Definition string_trim_c2 : sym := 459.
Definition string_trim_x : sym := 460.
Definition string_trim_x2 : sym := 461.
Definition string_trim_addChar : sym := 462.
Definition string_trim_s2 : sym := 463.
Definition string_trim_x3 : sym := 464.
Definition string_trim_x4 : sym := 465.
Definition string_trim_leadingSpaces : sym := 466.
Definition string_trim_s3 : sym := 467.
Definition string_trim_t : sym := 468.
Definition string_trim_s4 : sym := 469.
Definition string_trim_l : sym := 470.
Definition string_trim : sym := 471.
Definition string_newline : sym := 472.
Definition int_iterate_a : sym := 473.
Definition int_iterate_x : sym := 474.
Definition int_iterate_f : sym := 475.
Definition int_iterate_init : sym := 476.
Definition int_iterate : sym := 477.
Definition int_toString_x : sym := 478.
Definition int_toString : sym := 479.
Definition int_ParseState : sym := 480.
Definition int_Parsing : sym := 481.
Definition int_Error : sym := 482.
Definition int_ParseErr : sym := 483.
Definition int_ParseErr2 : sym := 484.
Definition int_parse_s : sym := 485.
Definition int_parse_state : sym := 486.
Definition int_parse_ch : sym := 487.
Definition int_parse_idx : sym := 488.
Definition int_parse_acc : sym := 489.
Definition int_parse_step : sym := 490.
Definition int_parse__ : sym := 491.
Definition int_parse_acc2 : sym := 492.
Definition int_parse : sym := 493.
Definition int_min_a : sym := 494.
Definition int_min_b : sym := 495.
Definition int_min : sym := 496.
Definition int_max_a : sym := 497.
Definition int_max_b : sym := 498.
Definition int_max : sym := 499.
Definition int_GcdState : sym := 500.
Definition int_GcdState2 : sym := 501.
Definition int_gcd_state : sym := 502.
Definition int_gcd_a : sym := 503.
Definition int_gcd_b : sym := 504.
Definition int_gcd_stepState : sym := 505.
Definition int_gcd_a2 : sym := 506.
Definition int_gcd_b2 : sym := 507.
Definition int_gcd_x : sym := 508.
Definition int_gcd__ : sym := 509.
Definition int_gcd : sym := 510.
Definition int_lcm_a : sym := 511.
Definition int_lcm_b : sym := 512.
Definition int_lcm : sym := 513.
Definition int_bitXor_recurse : sym := 514.
Definition int_bitXor_a : sym := 515.
Definition int_bitXor_b : sym := 516.
Definition int_bitXor_low : sym := 517.
Definition int_bitXor_go : sym := 518.
Definition int_bitXor__ : sym := 519.
Definition int_bitXor__2 : sym := 520.
Definition int_bitXor : sym := 521.
Definition int_bitAnd_recurse : sym := 522.
Definition int_bitAnd_a : sym := 523.
Definition int_bitAnd_b : sym := 524.
Definition int_bitAnd_low : sym := 525.
Definition int_bitAnd_go : sym := 526.
Definition int_bitAnd__ : sym := 527.
Definition int_bitAnd__2 : sym := 528.
Definition int_bitAnd : sym := 529.
Definition int_bitOr_recurse : sym := 530.
Definition int_bitOr_a : sym := 531.
Definition int_bitOr_b : sym := 532.
Definition int_bitOr_low : sym := 533.
Definition int_bitOr_go : sym := 534.
Definition int_bitOr__ : sym := 535.
Definition int_bitOr__2 : sym := 536.
Definition int_bitOr : sym := 537.
Definition array_ArrayData : sym := 538.
Definition array_ArrayData_a : sym := 539.
Definition array_Leaf : sym := 540.
Definition array_Node : sym := 541.
Definition array_mapLeaf_a : sym := 542.
Definition array_mapLeaf_idx : sym := 543.
Definition array_mapLeaf_f : sym := 544.
Definition array_mapLeaf_arr : sym := 545.
Definition array_mapLeaf_a2 : sym := 546.
Definition array_mapLeaf_b : sym := 547.
Definition array_mapLeaf_c : sym := 548.
Definition array_mapLeaf_d : sym := 549.
Definition array_mapLeaf__ : sym := 550.
Definition array_mapLeaf__2 : sym := 551.
Definition array_mapLeaf__3 : sym := 552.
Definition array_mapLeaf__4 : sym := 553.
Definition array_mapLeaf : sym := 554.
Definition array_mapNode_a : sym := 555.
Definition array_mapNode_quarter : sym := 556.
Definition array_mapNode_recurse : sym := 557.
Definition array_mapNode_idx : sym := 558.
Definition array_mapNode_f : sym := 559.
Definition array_mapNode_arr : sym := 560.
Definition array_mapNode__ : sym := 561.
Definition array_mapNode__2 : sym := 562.
Definition array_mapNode__3 : sym := 563.
Definition array_mapNode__4 : sym := 564.
Definition array_mapNode_a2 : sym := 565.
Definition array_mapNode_b : sym := 566.
Definition array_mapNode_c : sym := 567.
Definition array_mapNode_d : sym := 568.
Definition array_mapNode : sym := 569.
Definition array_getLeaf_a : sym := 570.
Definition array_getLeaf_idx : sym := 571.
Definition array_getLeaf_arr : sym := 572.
Definition array_getLeaf_a2 : sym := 573.
Definition array_getLeaf_b : sym := 574.
Definition array_getLeaf_c : sym := 575.
Definition array_getLeaf_d : sym := 576.
Definition array_getLeaf__ : sym := 577.
Definition array_getLeaf__2 : sym := 578.
Definition array_getLeaf__3 : sym := 579.
Definition array_getLeaf__4 : sym := 580.
Definition array_getLeaf : sym := 581.
Definition array_getNode_a : sym := 582.
Definition array_getNode_quarter : sym := 583.
Definition array_getNode_recurse : sym := 584.
Definition array_getNode_idx : sym := 585.
Definition array_getNode_arr : sym := 586.
Definition array_getNode_a2 : sym := 587.
Definition array_getNode__ : sym := 588.
Definition array_getNode__2 : sym := 589.
Definition array_getNode__3 : sym := 590.
Definition array_getNode_a3 : sym := 591.
Definition array_getNode_b : sym := 592.
Definition array_getNode_c : sym := 593.
Definition array_getNode_d : sym := 594.
Definition array_getNode : sym := 595.
Definition array_Array : sym := 596.
Definition array_Array_a : sym := 597.
Definition array_NonEmptyArray : sym := 598.
Definition array_EmptyArray : sym := 599.
Definition array_length_a : sym := 600.
Definition array_length_arr : sym := 601.
Definition array_length_x : sym := 602.
Definition array_length__ : sym := 603.
Definition array_length__2 : sym := 604.
Definition array_length__3 : sym := 605.
Definition array_length : sym := 606.
Definition array_empty_a : sym := 607.
Definition array_empty : sym := 608.
Definition array_new_a : sym := 609.
Definition array_new_size : sym := 610.
Definition array_new_value : sym := 611.
Definition array_new_arr : sym := 612.
Definition array_new_size2 : sym := 613.
Definition array_new_data : sym := 614.
Definition array_new_map : sym := 615.
Definition array_new_get : sym := 616.
Definition array_new_grow : sym := 617.
Definition array_new_arr2 : sym := 618.
Definition array_new_tryGrow : sym := 619.
Definition array_new_singleton : sym := 620.
Definition array_new__ : sym := 621.
Definition array_new_data2 : sym := 622.
Definition array_new_map2 : sym := 623.
Definition array_new_get2 : sym := 624.
Definition array_new : sym := 625.
Definition array_mapIdx_a : sym := 626.
Definition array_mapIdx_idx : sym := 627.
Definition array_mapIdx_f : sym := 628.
Definition array_mapIdx_arr : sym := 629.
Definition array_mapIdx_size : sym := 630.
Definition array_mapIdx_data : sym := 631.
Definition array_mapIdx_map : sym := 632.
Definition array_mapIdx_get : sym := 633.
Definition array_mapIdx : sym := 634.
Definition array_get_a : sym := 635.
Definition array_get_idx : sym := 636.
Definition array_get_arr : sym := 637.
Definition array_get_size : sym := 638.
Definition array_get_data : sym := 639.
Definition array_get__ : sym := 640.
Definition array_get_get : sym := 641.
Definition array_get : sym := 642.
Definition array_set_a : sym := 643.
Definition array_set_idx : sym := 644.
Definition array_set_value : sym := 645.
Definition array_set_arr : sym := 646.
Definition array_set__ : sym := 647.
Definition array_set : sym := 648.
Definition array_toList_a : sym := 649.
Definition array_toList_arr : sym := 650.
Definition array_toList_i : sym := 651.
Definition array_toList : sym := 652.
Definition array_fromList_a : sym := 653.
Definition array_fromList_l : sym := 654.
Definition array_fromList_idx : sym := 655.
Definition array_fromList_arr : sym := 656.
Definition array_fromList_x : sym := 657.
Definition array_fromList_xs : sym := 658.
Definition array_fromList_arr2 : sym := 659.
Definition array_fromList_go : sym := 660.
Definition array_fromList_l2 : sym := 661.
Definition array_fromList_x2 : sym := 662.
Definition array_fromList__ : sym := 663.
Definition array_fromList_init : sym := 664.
Definition array_fromList : sym := 665.
Definition array_truncate_a : sym := 666.
Definition array_truncate_newSize : sym := 667.
Definition array_truncate_arr : sym := 668.
Definition array_truncate_size : sym := 669.
Definition array_truncate_data : sym := 670.
Definition array_truncate_map : sym := 671.
Definition array_truncate_get : sym := 672.
Definition array_truncate : sym := 673.
Definition key_intrinsics : nat := 0.
Definition key_option : nat := 1.
Definition key_result : nat := 2.
Definition key_list : nat := 3.
Definition key_string : nat := 4.
Definition key_int : nat := 5.
Definition key_array : nat := 6.

(** ** std/intrinsics *)
(** std/intrinsics.tic:1 *)
Definition it_intrinsics_iterate : item := IVal intrinsics_iterate [intrinsics_iterate_a] (SFn SInt (SFn (SFn (SNamed intrinsics_iterate_a []) (SNamed intrinsics_iterate_a [])) (SFn (SNamed intrinsics_iterate_a []) (SNamed intrinsics_iterate_a [])))) (Some [105%N; 116%N; 101%N; 114%N; 97%N; 116%N; 101%N]) (inl BIterate).
(** std/intrinsics.tic:2 *)
Definition it_intrinsics_stringLength : item := IVal intrinsics_stringLength [] (SFn SString SInt) (Some [115%N; 116%N; 114%N; 105%N; 110%N; 103%N; 76%N; 101%N; 110%N; 103%N; 116%N; 104%N]) (inl (BStr StringLen)).
(** std/intrinsics.tic:3 *)
Definition it_intrinsics_stringConcat : item := IVal intrinsics_stringConcat [] (SFn SString (SFn SString SString)) (Some [115%N; 116%N; 114%N; 105%N; 110%N; 103%N; 67%N; 111%N; 110%N; 99%N; 97%N; 116%N]) (inl (BStr StringConcat)).
(** std/intrinsics.tic:4 *)
Definition it_intrinsics_stringCharAt : item := IVal intrinsics_stringCharAt [] (SFn SInt (SFn SString SInt)) (Some [115%N; 116%N; 114%N; 105%N; 110%N; 103%N; 67%N; 104%N; 97%N; 114%N; 65%N; 116%N]) (inl (BStr StringCharAt)).
(** std/intrinsics.tic:5 *)
Definition it_intrinsics_stringSubstring : item := IVal intrinsics_stringSubstring [] (SFn SInt (SFn SInt (SFn SString SString))) (Some [115%N; 116%N; 114%N; 105%N; 110%N; 103%N; 83%N; 117%N; 98%N; 115%N; 116%N; 114%N; 105%N; 110%N; 103%N]) (inl (BStr StringSubstring)).
(** std/intrinsics.tic:6 *)
Definition it_intrinsics_stringFromChar : item := IVal intrinsics_stringFromChar [] (SFn SInt SString) (Some [115%N; 116%N; 114%N; 105%N; 110%N; 103%N; 70%N; 114%N; 111%N; 109%N; 67%N; 104%N; 97%N; 114%N]) (inl (BStr StringFromChar)).
(** std/intrinsics.tic:7 *)
Definition it_intrinsics_intToString : item := IVal intrinsics_intToString [] (SFn SInt SString) (Some [105%N; 110%N; 116%N; 84%N; 111%N; 83%N; 116%N; 114%N; 105%N; 110%N; 103%N]) (inl (BStr IntToString)).
Definition mod_intrinsics : list item := [it_intrinsics_iterate; it_intrinsics_stringLength; it_intrinsics_stringConcat; it_intrinsics_stringCharAt; it_intrinsics_stringSubstring; it_intrinsics_stringFromChar; it_intrinsics_intToString].

(** ** std/option *)
(** std/option.tic:1 *)
Definition ty_option_Option : item := ITy option_Option [option_Option_a] [(option_None, []); (option_Some, [Some (SNamed option_Option_a [])])].
(** std/option.tic:3-8 *)
Definition e_option_map : sexpr :=
  SLam option_map_f [] (SFn (SNamed option_map_a []) (SNamed option_map_b [])) (SLam option_map_opt [] (SNamed option_Option [(SNamed option_map_a [])]) (SMatch false (SName option_map_opt []) [(option_Some, [option_map_x], SApply (SName option_Some [(SNamed option_map_b [])]) (SParen (SApply (SName option_map_f []) (SName option_map_x []))));
      (option_None, [], SName option_None [(SNamed option_map_b [])])])).
Definition it_option_map : item := IVal option_map [option_map_a; option_map_b] (SFn (SFn (SNamed option_map_a []) (SNamed option_map_b [])) (SFn (SNamed option_Option [(SNamed option_map_a [])]) (SNamed option_Option [(SNamed option_map_b [])]))) (Some [109%N; 97%N; 112%N]) (inr e_option_map).
(** std/option.tic:10-15 *)
Definition e_option_andThen : sexpr :=
  SLam option_andThen_f [] (SFn (SNamed option_andThen_a []) (SNamed option_Option [(SNamed option_andThen_b [])])) (SLam option_andThen_opt [] (SNamed option_Option [(SNamed option_andThen_a [])]) (SMatch false (SName option_andThen_opt []) [(option_Some, [option_andThen_x], SApply (SName option_andThen_f []) (SName option_andThen_x []));
      (option_None, [], SName option_None [(SNamed option_andThen_b [])])])).
Definition it_option_andThen : item := IVal option_andThen [option_andThen_a; option_andThen_b] (SFn (SFn (SNamed option_andThen_a []) (SNamed option_Option [(SNamed option_andThen_b [])])) (SFn (SNamed option_Option [(SNamed option_andThen_a [])]) (SNamed option_Option [(SNamed option_andThen_b [])]))) (Some [97%N; 110%N; 100%N; 84%N; 104%N; 101%N; 110%N]) (inr e_option_andThen).
(** std/option.tic:17-22 *)
Definition e_option_flatten : sexpr :=
  SLam option_flatten_opt [] (SNamed option_Option [(SNamed option_Option [(SNamed option_flatten_a [])])]) (SMatch false (SName option_flatten_opt []) [(option_Some, [option_flatten_x], SName option_flatten_x []);
      (option_None, [], SName option_None [(SNamed option_flatten_a [])])]).
Definition it_option_flatten : item := IVal option_flatten [option_flatten_a] (SFn (SNamed option_Option [(SNamed option_Option [(SNamed option_flatten_a [])])]) (SNamed option_Option [(SNamed option_flatten_a [])])) (Some [102%N; 108%N; 97%N; 116%N; 116%N; 101%N; 110%N]) (inr e_option_flatten).
(** std/option.tic:24-29 *)
Definition e_option_unwrapOr : sexpr :=
  SLam option_unwrapOr_default [] (SNamed option_unwrapOr_a []) (SLam option_unwrapOr_opt [] (SNamed option_Option [(SNamed option_unwrapOr_a [])]) (SMatch false (SName option_unwrapOr_opt []) [(option_None, [], SName option_unwrapOr_default []);
      (option_Some, [option_unwrapOr_x], SName option_unwrapOr_x [])])).
Definition it_option_unwrapOr : item := IVal option_unwrapOr [option_unwrapOr_a] (SFn (SNamed option_unwrapOr_a []) (SFn (SNamed option_Option [(SNamed option_unwrapOr_a [])]) (SNamed option_unwrapOr_a []))) (Some [117%N; 110%N; 119%N; 114%N; 97%N; 112%N; 79%N; 114%N]) (inr e_option_unwrapOr).
(** std/option.tic:31-36 *)
Definition e_option_apply : sexpr :=
  SLam option_apply_x [] (SNamed option_Option [(SNamed option_apply_a [])]) (SLam option_apply_f [] (SNamed option_Option [(SFn (SNamed option_apply_a []) (SNamed option_apply_b []))]) (SMatch false (SName option_apply_f []) [(option_None, [], SName option_None [(SNamed option_apply_b [])]);
      (option_Some, [option_apply_f2], SApply (SApply (SName option_map [(SNamed option_apply_a []); (SNamed option_apply_b [])]) (SName option_apply_f2 [])) (SName option_apply_x []))])).
Definition it_option_apply : item := IVal option_apply [option_apply_a; option_apply_b] (SFn (SNamed option_Option [(SNamed option_apply_a [])]) (SFn (SNamed option_Option [(SFn (SNamed option_apply_a []) (SNamed option_apply_b []))]) (SNamed option_Option [(SNamed option_apply_b [])]))) (Some [97%N; 112%N; 112%N; 108%N; 121%N]) (inr e_option_apply).
(** std/option.tic:38-43 *)
Definition e_option_isSome : sexpr :=
  SLam option_isSome_opt [] (SNamed option_Option [(SNamed option_isSome_a [])]) (SMatch false (SName option_isSome_opt []) [(option_Some, [option_isSome__], SBoolean true);
      (option_None, [], SBoolean false)]).
Definition it_option_isSome : item := IVal option_isSome [option_isSome_a] (SFn (SNamed option_Option [(SNamed option_isSome_a [])]) SBool) (Some [105%N; 115%N; 83%N; 111%N; 109%N; 101%N]) (inr e_option_isSome).
(** std/option.tic:45-50 *)
Definition e_option_isNone : sexpr :=
  SLam option_isNone_opt [] (SNamed option_Option [(SNamed option_isNone_a [])]) (SMatch false (SName option_isNone_opt []) [(option_Some, [option_isNone__], SBoolean false);
      (option_None, [], SBoolean true)]).
Definition it_option_isNone : item := IVal option_isNone [option_isNone_a] (SFn (SNamed option_Option [(SNamed option_isNone_a [])]) SBool) (Some [105%N; 115%N; 78%N; 111%N; 110%N; 101%N]) (inr e_option_isNone).
Definition mod_option : list item := [ty_option_Option; it_option_map; it_option_andThen; it_option_flatten; it_option_unwrapOr; it_option_apply; it_option_isSome; it_option_isNone].

(** ** std/result *)
(** std/result.tic:3 *)
Definition ty_result_Result : item := ITy result_Result [result_Result_t; result_Result_e] [(result_Ok, [Some (SNamed result_Result_t [])]); (result_Err, [Some (SNamed result_Result_e [])])].
(** std/result.tic:5-10 *)
Definition e_result_map : sexpr :=
  SLam result_map_f [] (SFn (SNamed result_map_a []) (SNamed result_map_b [])) (SLam result_map_r [] (SNamed result_Result [(SNamed result_map_a []); (SNamed result_map_e [])]) (SMatch false (SName result_map_r []) [(result_Ok, [result_map_x], SApply (SName result_Ok [(SNamed result_map_b []); (SNamed result_map_e [])]) (SParen (SApply (SName result_map_f []) (SName result_map_x []))));
      (result_Err, [result_map_e2], SApply (SName result_Err [(SNamed result_map_b []); (SNamed result_map_e [])]) (SName result_map_e2 []))])).
Definition it_result_map : item := IVal result_map [result_map_a; result_map_b; result_map_e] (SFn (SFn (SNamed result_map_a []) (SNamed result_map_b [])) (SFn (SNamed result_Result [(SNamed result_map_a []); (SNamed result_map_e [])]) (SNamed result_Result [(SNamed result_map_b []); (SNamed result_map_e [])]))) (Some [109%N; 97%N; 112%N]) (inr e_result_map).
(** std/result.tic:12-17 *)
Definition e_result_mapErr : sexpr :=
  SLam result_mapErr_f [] (SFn (SNamed result_mapErr_a []) (SNamed result_mapErr_b [])) (SLam result_mapErr_r [] (SNamed result_Result [(SNamed result_mapErr_t []); (SNamed result_mapErr_a [])]) (SMatch false (SName result_mapErr_r []) [(result_Ok, [result_mapErr_x], SApply (SName result_Ok [(SNamed result_mapErr_t []); (SNamed result_mapErr_b [])]) (SName result_mapErr_x []));
      (result_Err, [result_mapErr_e], SApply (SName result_Err [(SNamed result_mapErr_t []); (SNamed result_mapErr_b [])]) (SParen (SApply (SName result_mapErr_f []) (SName result_mapErr_e []))))])).
Definition it_result_mapErr : item := IVal result_mapErr [result_mapErr_a; result_mapErr_b; result_mapErr_t] (SFn (SFn (SNamed result_mapErr_a []) (SNamed result_mapErr_b [])) (SFn (SNamed result_Result [(SNamed result_mapErr_t []); (SNamed result_mapErr_a [])]) (SNamed result_Result [(SNamed result_mapErr_t []); (SNamed result_mapErr_b [])]))) (Some [109%N; 97%N; 112%N; 69%N; 114%N; 114%N]) (inr e_result_mapErr).
(** std/result.tic:19-24 *)
Definition e_result_andThen : sexpr :=
  SLam result_andThen_f [] (SFn (SNamed result_andThen_a []) (SNamed result_Result [(SNamed result_andThen_b []); (SNamed result_andThen_e [])])) (SLam result_andThen_r [] (SNamed result_Result [(SNamed result_andThen_a []); (SNamed result_andThen_e [])]) (SMatch false (SName result_andThen_r []) [(result_Ok, [result_andThen_x], SApply (SName result_andThen_f []) (SName result_andThen_x []));
      (result_Err, [result_andThen_e2], SApply (SName result_Err [(SNamed result_andThen_b []); (SNamed result_andThen_e [])]) (SName result_andThen_e2 []))])).
Definition it_result_andThen : item := IVal result_andThen [result_andThen_a; result_andThen_b; result_andThen_e] (SFn (SFn (SNamed result_andThen_a []) (SNamed result_Result [(SNamed result_andThen_b []); (SNamed result_andThen_e [])])) (SFn (SNamed result_Result [(SNamed result_andThen_a []); (SNamed result_andThen_e [])]) (SNamed result_Result [(SNamed result_andThen_b []); (SNamed result_andThen_e [])]))) (Some [97%N; 110%N; 100%N; 84%N; 104%N; 101%N; 110%N]) (inr e_result_andThen).
(** std/result.tic:26-31 *)
Definition e_result_flatten : sexpr :=
  SLam result_flatten_r [] (SNamed result_Result [(SNamed result_Result [(SNamed result_flatten_a []); (SNamed result_flatten_e [])]); (SNamed result_flatten_e [])]) (SMatch false (SName result_flatten_r []) [(result_Ok, [result_flatten_x], SName result_flatten_x []);
      (result_Err, [result_flatten_e2], SApply (SName result_Err [(SNamed result_flatten_a []); (SNamed result_flatten_e [])]) (SName result_flatten_e2 []))]).
Definition it_result_flatten : item := IVal result_flatten [result_flatten_a; result_flatten_e] (SFn (SNamed result_Result [(SNamed result_Result [(SNamed result_flatten_a []); (SNamed result_flatten_e [])]); (SNamed result_flatten_e [])]) (SNamed result_Result [(SNamed result_flatten_a []); (SNamed result_flatten_e [])])) (Some [102%N; 108%N; 97%N; 116%N; 116%N; 101%N; 110%N]) (inr e_result_flatten).
(** std/result.tic:33-38 *)
Definition e_result_unwrapOr : sexpr :=
  SLam result_unwrapOr_default [] (SNamed result_unwrapOr_a []) (SLam result_unwrapOr_r [] (SNamed result_Result [(SNamed result_unwrapOr_a []); (SNamed result_unwrapOr_e [])]) (SMatch false (SName result_unwrapOr_r []) [(result_Err, [result_unwrapOr__], SName result_unwrapOr_default []);
      (result_Ok, [result_unwrapOr_x], SName result_unwrapOr_x [])])).
Definition it_result_unwrapOr : item := IVal result_unwrapOr [result_unwrapOr_a; result_unwrapOr_e] (SFn (SNamed result_unwrapOr_a []) (SFn (SNamed result_Result [(SNamed result_unwrapOr_a []); (SNamed result_unwrapOr_e [])]) (SNamed result_unwrapOr_a []))) (Some [117%N; 110%N; 119%N; 114%N; 97%N; 112%N; 79%N; 114%N]) (inr e_result_unwrapOr).
(** std/result.tic:40-45 *)
Definition e_result_ok : sexpr :=
  SLam result_ok_r [] (SNamed result_Result [(SNamed result_ok_a []); (SNamed result_ok_e [])]) (SMatch false (SName result_ok_r []) [(result_Ok, [result_ok_x], SApply (SName option_Some [(SNamed result_ok_a [])]) (SName result_ok_x []));
      (result_Err, [result_ok__], SName option_None [(SNamed result_ok_a [])])]).
Definition it_result_ok : item := IVal result_ok [result_ok_a; result_ok_e] (SFn (SNamed result_Result [(SNamed result_ok_a []); (SNamed result_ok_e [])]) (SNamed option_Option [(SNamed result_ok_a [])])) (Some [111%N; 107%N]) (inr e_result_ok).
(** std/result.tic:47-52 *)
Definition e_result_err : sexpr :=
  SLam result_err_r [] (SNamed result_Result [(SNamed result_err_a []); (SNamed result_err_e [])]) (SMatch false (SName result_err_r []) [(result_Ok, [result_err__], SName option_None [(SNamed result_err_e [])]);
      (result_Err, [result_err_e2], SApply (SName option_Some [(SNamed result_err_e [])]) (SName result_err_e2 []))]).
Definition it_result_err : item := IVal result_err [result_err_a; result_err_e] (SFn (SNamed result_Result [(SNamed result_err_a []); (SNamed result_err_e [])]) (SNamed option_Option [(SNamed result_err_e [])])) (Some [101%N; 114%N; 114%N]) (inr e_result_err).
(** std/result.tic:54-59 *)
Definition e_result_okOr : sexpr :=
  SLam result_okOr_e2 [] (SNamed result_okOr_e []) (SLam result_okOr_opt [] (SNamed option_Option [(SNamed result_okOr_a [])]) (SMatch false (SName result_okOr_opt []) [(option_Some, [result_okOr_x], SApply (SName result_Ok [(SNamed result_okOr_a []); (SNamed result_okOr_e [])]) (SName result_okOr_x []));
      (option_None, [], SApply (SName result_Err [(SNamed result_okOr_a []); (SNamed result_okOr_e [])]) (SName result_okOr_e2 []))])).
Definition it_result_okOr : item := IVal result_okOr [result_okOr_e; result_okOr_a] (SFn (SNamed result_okOr_e []) (SFn (SNamed option_Option [(SNamed result_okOr_a [])]) (SNamed result_Result [(SNamed result_okOr_a []); (SNamed result_okOr_e [])]))) (Some [111%N; 107%N; 79%N; 114%N]) (inr e_result_okOr).
(** std/result.tic:61-66 *)
Definition e_result_apply : sexpr :=
  SLam result_apply_x [] (SNamed result_Result [(SNamed result_apply_a []); (SNamed result_apply_e [])]) (SLam result_apply_f [] (SNamed result_Result [(SFn (SNamed result_apply_a []) (SNamed result_apply_b [])); (SNamed result_apply_e [])]) (SMatch false (SName result_apply_f []) [(result_Err, [result_apply_e2], SApply (SName result_Err [(SNamed result_apply_b []); (SNamed result_apply_e [])]) (SName result_apply_e2 []));
      (result_Ok, [result_apply_f2], SApply (SApply (SName result_map [(SNamed result_apply_a []); (SNamed result_apply_b []); (SNamed result_apply_e [])]) (SName result_apply_f2 [])) (SName result_apply_x []))])).
Definition it_result_apply : item := IVal result_apply [result_apply_a; result_apply_e; result_apply_b] (SFn (SNamed result_Result [(SNamed result_apply_a []); (SNamed result_apply_e [])]) (SFn (SNamed result_Result [(SFn (SNamed result_apply_a []) (SNamed result_apply_b [])); (SNamed result_apply_e [])]) (SNamed result_Result [(SNamed result_apply_b []); (SNamed result_apply_e [])]))) (Some [97%N; 112%N; 112%N; 108%N; 121%N]) (inr e_result_apply).
(** std/result.tic:68-73 *)
Definition e_result_join : sexpr :=
  SLam result_join_x [] (SNamed result_Result [(SNamed result_join_a []); (SNamed result_join_a [])]) (SMatch false (SName result_join_x []) [(result_Ok, [result_join_x2], SName result_join_x2 []);
      (result_Err, [result_join_x3], SName result_join_x3 [])]).
Definition it_result_join : item := IVal result_join [result_join_a] (SFn (SNamed result_Result [(SNamed result_join_a []); (SNamed result_join_a [])]) (SNamed result_join_a [])) (Some [106%N; 111%N; 105%N; 110%N]) (inr e_result_join).
Definition mod_result : list item := [IImport [(key_option, mod_option)]; ty_result_Result; it_result_map; it_result_mapErr; it_result_andThen; it_result_flatten; it_result_unwrapOr; it_result_ok; it_result_err; it_result_okOr; it_result_apply; it_result_join].

(** ** std/list *)
(** std/list.tic:5 *)
Definition ty_list_List : item := ITy list_List [list_List_a] [(list_Nil, []); (list_Cons, [Some (SNamed list_List_a []); None])].
(** std/list.tic:7-12 *)
Definition e_list_map : sexpr :=
  SLam list_map_f [] (SFn (SNamed list_map_a []) (SNamed list_map_b [])) (SFold (SFn (SNamed list_List [(SNamed list_map_a [])]) (SNamed list_List [(SNamed list_map_b [])])) list_map_list
     (SMatch true (SName list_map_list []) [(list_Nil, [], SName list_Nil [(SNamed list_map_b [])]);
      (list_Cons, [list_map_x; list_map_xs], SApply (SApply (SName list_Cons [(SNamed list_map_b [])]) (SParen (SApply (SName list_map_f []) (SName list_map_x [])))) (SName list_map_xs []))])).
Definition it_list_map : item := IVal list_map [list_map_a; list_map_b] (SFn (SFn (SNamed list_map_a []) (SNamed list_map_b [])) (SFn (SNamed list_List [(SNamed list_map_a [])]) (SNamed list_List [(SNamed list_map_b [])]))) (Some [109%N; 97%N; 112%N]) (inr e_list_map).
(** std/list.tic:14-19 *)
Definition e_list_filter : sexpr :=
  SLam list_filter_f [] (SFn (SNamed list_filter_a []) SBool) (SFold (SFn (SNamed list_List [(SNamed list_filter_a [])]) (SNamed list_List [(SNamed list_filter_a [])])) list_filter_list
     (SMatch true (SName list_filter_list []) [(list_Nil, [], SName list_Nil [(SNamed list_filter_a [])]);
      (list_Cons, [list_filter_x; list_filter_xs], SIf (SApply (SName list_filter_f []) (SName list_filter_x [])) (SApply (SApply (SName list_Cons [(SNamed list_filter_a [])]) (SName list_filter_x [])) (SName list_filter_xs []))
      (SName list_filter_xs []))])).
Definition it_list_filter : item := IVal list_filter [list_filter_a] (SFn (SFn (SNamed list_filter_a []) SBool) (SFn (SNamed list_List [(SNamed list_filter_a [])]) (SNamed list_List [(SNamed list_filter_a [])]))) (Some [102%N; 105%N; 108%N; 116%N; 101%N; 114%N]) (inr e_list_filter).
(** std/list.tic:21-26 *)
Definition e_list_sum : sexpr :=
  SFold (SFn (SNamed list_List [SInt]) SInt) list_sum_list
     (SMatch true (SName list_sum_list []) [(list_Nil, [], SNumber 0);
      (list_Cons, [list_sum_x; list_sum_xs], SBinary (SName list_sum_x []) Add (SName list_sum_xs []))]).
Definition it_list_sum : item := IVal list_sum [] (SFn (SNamed list_List [SInt]) SInt) (Some [115%N; 117%N; 109%N]) (inr e_list_sum).
(** std/list.tic:28-33 *)
Definition e_list_product : sexpr :=
  SFold (SFn (SNamed list_List [SInt]) SInt) list_product_list
     (SMatch true (SName list_product_list []) [(list_Nil, [], SNumber 1);
      (list_Cons, [list_product_x; list_product_xs], SBinary (SName list_product_x []) Multiply (SName list_product_xs []))]).
Definition it_list_product : item := IVal list_product [] (SFn (SNamed list_List [SInt]) SInt) (Some [112%N; 114%N; 111%N; 100%N; 117%N; 99%N; 116%N]) (inr e_list_product).
(** std/list.tic:35-40 *)
Definition e_list_any : sexpr :=
  SFold (SFn (SNamed list_List [SBool]) SBool) list_any_list
     (SMatch true (SName list_any_list []) [(list_Nil, [], SBoolean false);
      (list_Cons, [list_any_x; list_any_xs], SIf (SName list_any_x []) (SBoolean true)
      (SName list_any_xs []))]).
Definition it_list_any : item := IVal list_any [] (SFn (SNamed list_List [SBool]) SBool) (Some [97%N; 110%N; 121%N]) (inr e_list_any).
(** std/list.tic:42-47 *)
Definition e_list_all : sexpr :=
  SFold (SFn (SNamed list_List [SBool]) SBool) list_all_list
     (SMatch true (SName list_all_list []) [(list_Nil, [], SBoolean true);
      (list_Cons, [list_all_x; list_all_xs], SIf (SName list_all_x []) (SName list_all_xs [])
      (SBoolean false))]).
Definition it_list_all : item := IVal list_all [] (SFn (SNamed list_List [SBool]) SBool) (Some [97%N; 108%N; 108%N]) (inr e_list_all).
(** std/list.tic:49-54 *)
Definition e_list_head : sexpr :=
  SLam list_head_list [] (SNamed list_List [(SNamed list_head_a [])]) (SMatch false (SName list_head_list []) [(list_Nil, [], SName option_None [(SNamed list_head_a [])]);
      (list_Cons, [list_head_x; list_head__], SApply (SName option_Some [(SNamed list_head_a [])]) (SName list_head_x []))]).
Definition it_list_head : item := IVal list_head [list_head_a] (SFn (SNamed list_List [(SNamed list_head_a [])]) (SNamed option_Option [(SNamed list_head_a [])])) (Some [104%N; 101%N; 97%N; 100%N]) (inr e_list_head).
(** std/list.tic:56-61 *)
Definition e_list_tail : sexpr :=
  SLam list_tail_list [] (SNamed list_List [(SNamed list_tail_a [])]) (SMatch false (SName list_tail_list []) [(list_Nil, [], SName option_None [(SNamed list_List [(SNamed list_tail_a [])])]);
      (list_Cons, [list_tail__; list_tail_xs], SApply (SName option_Some [(SNamed list_List [(SNamed list_tail_a [])])]) (SName list_tail_xs []))]).
Definition it_list_tail : item := IVal list_tail [list_tail_a] (SFn (SNamed list_List [(SNamed list_tail_a [])]) (SNamed option_Option [(SNamed list_List [(SNamed list_tail_a [])])])) (Some [116%N; 97%N; 105%N; 108%N]) (inr e_list_tail).
(** std/list.tic:63-70 *)
Definition e_list_reverse : sexpr :=
  SLam list_reverse_list [] (SNamed list_List [(SNamed list_reverse_a [])]) (SLet list_reverse_go [] (SFold (SFn (SNamed list_List [(SNamed list_reverse_a [])]) (SFn (SNamed list_List [(SNamed list_reverse_a [])]) (SNamed list_List [(SNamed list_reverse_a [])]))) list_reverse_list2
     (SLam list_reverse_acc [] (SNamed list_List [(SNamed list_reverse_a [])]) (SMatch true (SName list_reverse_list2 []) [(list_Nil, [], SName list_reverse_acc []);
      (list_Cons, [list_reverse_x; list_reverse_xs], SApply (SName list_reverse_xs []) (SParen (SApply (SApply (SName list_Cons [(SNamed list_reverse_a [])]) (SName list_reverse_x [])) (SName list_reverse_acc []))))])))
    (SApply (SApply (SName list_reverse_go []) (SName list_reverse_list [])) (SName list_Nil [(SNamed list_reverse_a [])]))).
Definition it_list_reverse : item := IVal list_reverse [list_reverse_a] (SFn (SNamed list_List [(SNamed list_reverse_a [])]) (SNamed list_List [(SNamed list_reverse_a [])])) (Some [114%N; 101%N; 118%N; 101%N; 114%N; 115%N; 101%N]) (inr e_list_reverse).
(** std/list.tic:72-85 *)
Definition e_list_max : sexpr :=
  SFold (SFn (SNamed list_List [SInt]) (SNamed option_Option [SInt])) list_max_list
     (SMatch true (SName list_max_list []) [(list_Nil, [], SName option_None [SInt]);
      (list_Cons, [list_max_x; list_max_res], SMatch false (SName list_max_res []) [(option_None, [], SApply (SName option_Some [SInt]) (SName list_max_x []));
      (option_Some, [list_max_y], SIf (SBinary (SName list_max_x []) Greater (SName list_max_y [])) (SApply (SName option_Some [SInt]) (SName list_max_x []))
      (SApply (SName option_Some [SInt]) (SName list_max_y [])))])]).
Definition it_list_max : item := IVal list_max [] (SFn (SNamed list_List [SInt]) (SNamed option_Option [SInt])) (Some [109%N; 97%N; 120%N]) (inr e_list_max).
(** std/list.tic:87-100 *)
Definition e_list_min : sexpr :=
  SFold (SFn (SNamed list_List [SInt]) (SNamed option_Option [SInt])) list_min_list
     (SMatch true (SName list_min_list []) [(list_Nil, [], SName option_None [SInt]);
      (list_Cons, [list_min_x; list_min_res], SMatch false (SName list_min_res []) [(option_None, [], SApply (SName option_Some [SInt]) (SName list_min_x []));
      (option_Some, [list_min_y], SIf (SBinary (SName list_min_x []) Less (SName list_min_y [])) (SApply (SName option_Some [SInt]) (SName list_min_x []))
      (SApply (SName option_Some [SInt]) (SName list_min_y [])))])]).
Definition it_list_min : item := IVal list_min [] (SFn (SNamed list_List [SInt]) (SNamed option_Option [SInt])) (Some [109%N; 105%N; 110%N]) (inr e_list_min).
(** std/list.tic:102-115 *)
Definition e_list_maxBy : sexpr :=
  SLam list_maxBy_less [] (SFn (SNamed list_maxBy_a []) (SFn (SNamed list_maxBy_a []) SBool)) (SFold (SFn (SNamed list_List [(SNamed list_maxBy_a [])]) (SNamed option_Option [(SNamed list_maxBy_a [])])) list_maxBy_list
     (SMatch true (SName list_maxBy_list []) [(list_Nil, [], SName option_None [(SNamed list_maxBy_a [])]);
      (list_Cons, [list_maxBy_x; list_maxBy_res], SMatch false (SName list_maxBy_res []) [(option_None, [], SApply (SName option_Some [(SNamed list_maxBy_a [])]) (SName list_maxBy_x []));
      (option_Some, [list_maxBy_y], SIf (SApply (SApply (SName list_maxBy_less []) (SName list_maxBy_x [])) (SName list_maxBy_y [])) (SApply (SName option_Some [(SNamed list_maxBy_a [])]) (SName list_maxBy_y []))
      (SApply (SName option_Some [(SNamed list_maxBy_a [])]) (SName list_maxBy_x [])))])])).
Definition it_list_maxBy : item := IVal list_maxBy [list_maxBy_a] (SFn (SFn (SNamed list_maxBy_a []) (SFn (SNamed list_maxBy_a []) SBool)) (SFn (SNamed list_List [(SNamed list_maxBy_a [])]) (SNamed option_Option [(SNamed list_maxBy_a [])]))) (Some [109%N; 97%N; 120%N; 66%N; 121%N]) (inr e_list_maxBy).
(** std/list.tic:117-130 *)
Definition e_list_minBy : sexpr :=
  SLam list_minBy_less [] (SFn (SNamed list_minBy_a []) (SFn (SNamed list_minBy_a []) SBool)) (SFold (SFn (SNamed list_List [(SNamed list_minBy_a [])]) (SNamed option_Option [(SNamed list_minBy_a [])])) list_minBy_list
     (SMatch true (SName list_minBy_list []) [(list_Nil, [], SName option_None [(SNamed list_minBy_a [])]);
      (list_Cons, [list_minBy_x; list_minBy_res], SMatch false (SName list_minBy_res []) [(option_None, [], SApply (SName option_Some [(SNamed list_minBy_a [])]) (SName list_minBy_x []));
      (option_Some, [list_minBy_y], SIf (SApply (SApply (SName list_minBy_less []) (SName list_minBy_x [])) (SName list_minBy_y [])) (SApply (SName option_Some [(SNamed list_minBy_a [])]) (SName list_minBy_x []))
      (SApply (SName option_Some [(SNamed list_minBy_a [])]) (SName list_minBy_y [])))])])).
Definition it_list_minBy : item := IVal list_minBy [list_minBy_a] (SFn (SFn (SNamed list_minBy_a []) (SFn (SNamed list_minBy_a []) SBool)) (SFn (SNamed list_List [(SNamed list_minBy_a [])]) (SNamed option_Option [(SNamed list_minBy_a [])]))) (Some [109%N; 105%N; 110%N; 66%N; 121%N]) (inr e_list_minBy).
(** std/list.tic:132-145 *)
Definition e_list_allSome : sexpr :=
  SFold (SFn (SNamed list_List [(SNamed option_Option [(SNamed list_allSome_a [])])]) (SNamed option_Option [(SNamed list_List [(SNamed list_allSome_a [])])])) list_allSome_list
     (SMatch true (SName list_allSome_list []) [(list_Nil, [], SApply (SName option_Some [(SNamed list_List [(SNamed list_allSome_a [])])]) (SName list_Nil [(SNamed list_allSome_a [])]));
      (list_Cons, [list_allSome_x; list_allSome_xs], SMatch false (SName list_allSome_x []) [(option_None, [], SName option_None [(SNamed list_List [(SNamed list_allSome_a [])])]);
      (option_Some, [list_allSome_x2], SMatch false (SName list_allSome_xs []) [(option_None, [], SName option_None [(SNamed list_List [(SNamed list_allSome_a [])])]);
      (option_Some, [list_allSome_xs2], SApply (SName option_Some [(SNamed list_List [(SNamed list_allSome_a [])])]) (SParen (SApply (SApply (SName list_Cons [(SNamed list_allSome_a [])]) (SName list_allSome_x2 [])) (SName list_allSome_xs2 []))))])])]).
Definition it_list_allSome : item := IVal list_allSome [list_allSome_a] (SFn (SNamed list_List [(SNamed option_Option [(SNamed list_allSome_a [])])]) (SNamed option_Option [(SNamed list_List [(SNamed list_allSome_a [])])])) (Some [97%N; 108%N; 108%N; 83%N; 111%N; 109%N; 101%N]) (inr e_list_allSome).
(** std/list.tic:147-160 *)
Definition e_list_allOk : sexpr :=
  SFold (SFn (SNamed list_List [(SNamed result_Result [(SNamed list_allOk_a []); (SNamed list_allOk_e [])])]) (SNamed result_Result [(SNamed list_List [(SNamed list_allOk_a [])]); (SNamed list_allOk_e [])])) list_allOk_list
     (SMatch true (SName list_allOk_list []) [(list_Nil, [], SApply (SName result_Ok [(SNamed list_List [(SNamed list_allOk_a [])]); (SNamed list_allOk_e [])]) (SName list_Nil [(SNamed list_allOk_a [])]));
      (list_Cons, [list_allOk_x; list_allOk_xs], SMatch false (SName list_allOk_x []) [(result_Err, [list_allOk_e2], SApply (SName result_Err [(SNamed list_List [(SNamed list_allOk_a [])]); (SNamed list_allOk_e [])]) (SName list_allOk_e2 []));
      (result_Ok, [list_allOk_x2], SMatch false (SName list_allOk_xs []) [(result_Err, [list_allOk_e3], SApply (SName result_Err [(SNamed list_List [(SNamed list_allOk_a [])]); (SNamed list_allOk_e [])]) (SName list_allOk_e3 []));
      (result_Ok, [list_allOk_xs2], SApply (SName result_Ok [(SNamed list_List [(SNamed list_allOk_a [])]); (SNamed list_allOk_e [])]) (SParen (SApply (SApply (SName list_Cons [(SNamed list_allOk_a [])]) (SName list_allOk_x2 [])) (SName list_allOk_xs2 []))))])])]).
Definition it_list_allOk : item := IVal list_allOk [list_allOk_a; list_allOk_e] (SFn (SNamed list_List [(SNamed result_Result [(SNamed list_allOk_a []); (SNamed list_allOk_e [])])]) (SNamed result_Result [(SNamed list_List [(SNamed list_allOk_a [])]); (SNamed list_allOk_e [])])) (Some [97%N; 108%N; 108%N; 79%N; 107%N]) (inr e_list_allOk).
(** std/list.tic:162-169 *)
Definition e_list_skip : sexpr :=
  SLam list_skip_x [] SInt (SLam list_skip_list [] (SNamed list_List [(SNamed list_skip_a [])]) (SLet list_skip_step [] (SLam list_skip_l [] (SNamed list_List [(SNamed list_skip_a [])]) (SMatch false (SName list_skip_l []) [(list_Nil, [], SName list_Nil [(SNamed list_skip_a [])]);
      (list_Cons, [list_skip__; list_skip_xs], SName list_skip_xs [])]))
    (SApply (SApply (SApply (SName intrinsics_iterate [(SNamed list_List [(SNamed list_skip_a [])])]) (SName list_skip_x [])) (SName list_skip_step [])) (SName list_skip_list [])))).
Definition it_list_skip : item := IVal list_skip [list_skip_a] (SFn SInt (SFn (SNamed list_List [(SNamed list_skip_a [])]) (SNamed list_List [(SNamed list_skip_a [])]))) (Some [115%N; 107%N; 105%N; 112%N]) (inr e_list_skip).
(** std/list.tic:171 *)
Definition ty_list_TakeState : item := ITy list_TakeState [list_TakeState_a] [(list_TakeState2, [Some (SNamed list_List [(SNamed list_TakeState_a [])]); Some (SNamed list_List [(SNamed list_TakeState_a [])])])].
(** std/list.tic:173-185 *)
Definition e_list_take : sexpr :=
  SLam list_take_x [] SInt (SLam list_take_list [] (SNamed list_List [(SNamed list_take_a [])]) (SLet list_take_step [] (SLam list_take_state [] (SNamed list_TakeState [(SNamed list_take_a [])]) (SMatch false (SName list_take_state []) [(list_TakeState2, [list_take_a2; list_take_b], SMatch false (SName list_take_b []) [(list_Nil, [], SApply (SApply (SName list_TakeState2 [(SNamed list_take_a [])]) (SName list_take_a2 [])) (SName list_take_b []));
      (list_Cons, [list_take_x2; list_take_xs], SApply (SApply (SName list_TakeState2 [(SNamed list_take_a [])]) (SParen (SApply (SApply (SName list_Cons [(SNamed list_take_a [])]) (SName list_take_x2 [])) (SName list_take_a2 [])))) (SName list_take_xs []))])]))
    (SMatch false (SApply (SApply (SApply (SName intrinsics_iterate [(SNamed list_TakeState [(SNamed list_take_a [])])]) (SName list_take_x [])) (SName list_take_step [])) (SParen (SApply (SApply (SName list_TakeState2 [(SNamed list_take_a [])]) (SName list_Nil [(SNamed list_take_a [])])) (SName list_take_list [])))) [(list_TakeState2, [list_take_a3; list_take__], SApply (SName list_reverse [(SNamed list_take_a [])]) (SName list_take_a3 []))]))).
Definition it_list_take : item := IVal list_take [list_take_a] (SFn SInt (SFn (SNamed list_List [(SNamed list_take_a [])]) (SNamed list_List [(SNamed list_take_a [])]))) (Some [116%N; 97%N; 107%N; 101%N]) (inr e_list_take).
(** std/list.tic:187-192 *)
Definition e_list_length : sexpr :=
  SFold (SFn (SNamed list_List [(SNamed list_length_a [])]) SInt) list_length_list
     (SMatch true (SName list_length_list []) [(list_Nil, [], SNumber 0);
      (list_Cons, [list_length__; list_length_xs], SBinary (SNumber 1) Add (SName list_length_xs []))]).
Definition it_list_length : item := IVal list_length [list_length_a] (SFn (SNamed list_List [(SNamed list_length_a [])]) SInt) (Some [108%N; 101%N; 110%N; 103%N; 116%N; 104%N]) (inr e_list_length).
(** std/list.tic:194-199 *)
Definition e_list_foldr : sexpr :=
  SLam list_foldr_f [] (SFn (SNamed list_foldr_a []) (SFn (SNamed list_foldr_b []) (SNamed list_foldr_b []))) (SLam list_foldr_init [] (SNamed list_foldr_b []) (SFold (SFn (SNamed list_List [(SNamed list_foldr_a [])]) (SNamed list_foldr_b [])) list_foldr_list
     (SMatch true (SName list_foldr_list []) [(list_Nil, [], SName list_foldr_init []);
      (list_Cons, [list_foldr_x; list_foldr_xs], SApply (SApply (SName list_foldr_f []) (SName list_foldr_x [])) (SName list_foldr_xs []))]))).
Definition it_list_foldr : item := IVal list_foldr [list_foldr_a; list_foldr_b] (SFn (SFn (SNamed list_foldr_a []) (SFn (SNamed list_foldr_b []) (SNamed list_foldr_b []))) (SFn (SNamed list_foldr_b []) (SFn (SNamed list_List [(SNamed list_foldr_a [])]) (SNamed list_foldr_b [])))) (Some [102%N; 111%N; 108%N; 100%N; 114%N]) (inr e_list_foldr).
(** std/list.tic:201-207 *)
Definition e_list_foldl : sexpr :=
  SLet list_foldl_go [] (SLam list_foldl_f [] (SFn (SNamed list_foldl_b []) (SFn (SNamed list_foldl_a []) (SNamed list_foldl_b []))) (SFold (SFn (SNamed list_List [(SNamed list_foldl_a [])]) (SFn (SNamed list_foldl_b []) (SNamed list_foldl_b []))) list_foldl_list
     (SLam list_foldl_acc [] (SNamed list_foldl_b []) (SMatch true (SName list_foldl_list []) [(list_Nil, [], SName list_foldl_acc []);
      (list_Cons, [list_foldl_x; list_foldl_xs], SApply (SName list_foldl_xs []) (SParen (SApply (SApply (SName list_foldl_f []) (SName list_foldl_acc [])) (SName list_foldl_x []))))]))))
    (SLam list_foldl_init [] (SNamed list_foldl_b []) (SLam list_foldl_f2 [] (SFn (SNamed list_foldl_b []) (SFn (SNamed list_foldl_a []) (SNamed list_foldl_b []))) (SLam list_foldl_list2 [] (SNamed list_List [(SNamed list_foldl_a [])]) (SApply (SApply (SApply (SName list_foldl_go []) (SName list_foldl_f2 [])) (SName list_foldl_list2 [])) (SName list_foldl_init []))))).
Definition it_list_foldl : item := IVal list_foldl [list_foldl_b; list_foldl_a] (SFn (SNamed list_foldl_b []) (SFn (SFn (SNamed list_foldl_b []) (SFn (SNamed list_foldl_a []) (SNamed list_foldl_b []))) (SFn (SNamed list_List [(SNamed list_foldl_a [])]) (SNamed list_foldl_b [])))) (Some [102%N; 111%N; 108%N; 100%N; 108%N]) (inr e_list_foldl).
(** std/list.tic:209-211 *)
Definition e_list_repeat : sexpr :=
  SLam list_repeat_count [] SInt (SLam list_repeat_value [] (SNamed list_repeat_a []) (SApply (SApply (SApply (SName intrinsics_iterate [(SNamed list_List [(SNamed list_repeat_a [])])]) (SName list_repeat_count [])) (SParen (SApply (SName list_Cons [(SNamed list_repeat_a [])]) (SName list_repeat_value [])))) (SName list_Nil [(SNamed list_repeat_a [])]))).
Definition it_list_repeat : item := IVal list_repeat [list_repeat_a] (SFn SInt (SFn (SNamed list_repeat_a []) (SNamed list_List [(SNamed list_repeat_a [])]))) (Some [114%N; 101%N; 112%N; 101%N; 97%N; 116%N]) (inr e_list_repeat).
(** std/list.tic:213-222 *)
Definition e_list_filterMap : sexpr :=
  SLam list_filterMap_f [] (SFn (SNamed list_filterMap_a []) (SNamed option_Option [(SNamed list_filterMap_b [])])) (SFold (SFn (SNamed list_List [(SNamed list_filterMap_a [])]) (SNamed list_List [(SNamed list_filterMap_b [])])) list_filterMap_list
     (SMatch true (SName list_filterMap_list []) [(list_Nil, [], SName list_Nil [(SNamed list_filterMap_b [])]);
      (list_Cons, [list_filterMap_x; list_filterMap_xs], SMatch false (SApply (SName list_filterMap_f []) (SName list_filterMap_x [])) [(option_Some, [list_filterMap_x2], SApply (SApply (SName list_Cons [(SNamed list_filterMap_b [])]) (SName list_filterMap_x2 [])) (SName list_filterMap_xs []));
      (option_None, [], SName list_filterMap_xs [])])])).
Definition it_list_filterMap : item := IVal list_filterMap [list_filterMap_a; list_filterMap_b] (SFn (SFn (SNamed list_filterMap_a []) (SNamed option_Option [(SNamed list_filterMap_b [])])) (SFn (SNamed list_List [(SNamed list_filterMap_a [])]) (SNamed list_List [(SNamed list_filterMap_b [])]))) (Some [102%N; 105%N; 108%N; 116%N; 101%N; 114%N; 77%N; 97%N; 112%N]) (inr e_list_filterMap).
(** std/list.tic:224-230 *)
Definition e_list_concat : sexpr :=
  SLet list_concat_helper [] (SLam list_concat_b [] (SNamed list_List [(SNamed list_concat_a [])]) (SFold (SFn (SNamed list_List [(SNamed list_concat_a [])]) (SNamed list_List [(SNamed list_concat_a [])])) list_concat_a2
     (SMatch true (SName list_concat_a2 []) [(list_Nil, [], SName list_concat_b []);
      (list_Cons, [list_concat_x; list_concat_xs], SApply (SApply (SName list_Cons [(SNamed list_concat_a [])]) (SName list_concat_x [])) (SName list_concat_xs []))])))
    (SLam list_concat_a3 [] (SNamed list_List [(SNamed list_concat_a [])]) (SLam list_concat_b2 [] (SNamed list_List [(SNamed list_concat_a [])]) (SApply (SApply (SName list_concat_helper []) (SName list_concat_b2 [])) (SName list_concat_a3 [])))).
Definition it_list_concat : item := IVal list_concat [list_concat_a] (SFn (SNamed list_List [(SNamed list_concat_a [])]) (SFn (SNamed list_List [(SNamed list_concat_a [])]) (SNamed list_List [(SNamed list_concat_a [])]))) (Some [99%N; 111%N; 110%N; 99%N; 97%N; 116%N]) (inr e_list_concat).
(** std/list.tic:233 *)
Definition ty_list_Tuple : item := ITy list_Tuple [list_Tuple_a; list_Tuple_b] [(list_Tuple2, [Some (SNamed list_Tuple_a []); Some (SNamed list_Tuple_b [])])].
(** std/list.tic:235-282 *)
Definition e_list_sortBy : sexpr :=
  SLet list_sortBy_merge [list_sortBy_merge_b] (SLam list_sortBy_less [] (SFn (SNamed list_sortBy_a []) (SFn (SNamed list_sortBy_a []) SBool)) (SFold (SFn (SNamed list_List [(SNamed list_sortBy_merge_b [])]) (SFn (SNamed list_List [(SNamed list_sortBy_a [])]) (SFn (SNamed list_List [(SNamed list_sortBy_a [])]) (SNamed list_List [(SNamed list_sortBy_a [])])))) list_sortBy_counter
     (SLam list_sortBy_a2 [] (SNamed list_List [(SNamed list_sortBy_a [])]) (SLam list_sortBy_b [] (SNamed list_List [(SNamed list_sortBy_a [])]) (SMatch true (SName list_sortBy_counter []) [(list_Nil, [], SName list_Nil [(SNamed list_sortBy_a [])]);
      (list_Cons, [list_sortBy__; list_sortBy_recurse], SMatch false (SName list_sortBy_a2 []) [(list_Nil, [], SName list_sortBy_b []);
      (list_Cons, [list_sortBy_x; list_sortBy_xs], SMatch false (SName list_sortBy_b []) [(list_Nil, [], SName list_sortBy_a2 []);
      (list_Cons, [list_sortBy_y; list_sortBy_ys], SIf (SApply (SApply (SName list_sortBy_less []) (SName list_sortBy_x [])) (SName list_sortBy_y [])) (SApply (SApply (SName list_Cons [(SNamed list_sortBy_a [])]) (SName list_sortBy_x [])) (SParen (SApply (SApply (SName list_sortBy_recurse []) (SName list_sortBy_xs [])) (SName list_sortBy_b []))))
      (SApply (SApply (SName list_Cons [(SNamed list_sortBy_a [])]) (SName list_sortBy_y [])) (SParen (SApply (SApply (SName list_sortBy_recurse []) (SName list_sortBy_a2 [])) (SName list_sortBy_ys [])))))])])])))))
    (SLet list_sortBy_merge2 [] (SLam list_sortBy_less2 [] (SFn (SNamed list_sortBy_a []) (SFn (SNamed list_sortBy_a []) SBool)) (SLam list_sortBy_a3 [] (SNamed list_List [(SNamed list_sortBy_a [])]) (SLam list_sortBy_b2 [] (SNamed list_List [(SNamed list_sortBy_a [])]) (SApply (SApply (SApply (SApply (SName list_sortBy_merge [(SNamed list_sortBy_a [])]) (SName list_sortBy_less2 [])) (SParen (SApply (SApply (SName list_concat [(SNamed list_sortBy_a [])]) (SName list_sortBy_a3 [])) (SName list_sortBy_b2 [])))) (SName list_sortBy_a3 [])) (SName list_sortBy_b2 [])))))
    (SLet list_sortBy_split [] (SFold (SFn (SNamed list_List [(SNamed list_sortBy_a [])]) (SNamed list_Tuple [(SNamed list_List [(SNamed list_sortBy_a [])]); (SNamed list_List [(SNamed list_sortBy_a [])])])) list_sortBy_list
     (SMatch true (SName list_sortBy_list []) [(list_Nil, [], SApply (SApply (SName list_Tuple2 [(SNamed list_List [(SNamed list_sortBy_a [])]); (SNamed list_List [(SNamed list_sortBy_a [])])]) (SName list_Nil [(SNamed list_sortBy_a [])])) (SName list_Nil [(SNamed list_sortBy_a [])]));
      (list_Cons, [list_sortBy_x2; list_sortBy_xs2], SMatch false (SName list_sortBy_xs2 []) [(list_Tuple2, [list_sortBy_xs3; list_sortBy_ys2], SApply (SApply (SName list_Tuple2 [(SNamed list_List [(SNamed list_sortBy_a [])]); (SNamed list_List [(SNamed list_sortBy_a [])])]) (SParen (SApply (SApply (SName list_Cons [(SNamed list_sortBy_a [])]) (SName list_sortBy_x2 [])) (SName list_sortBy_ys2 [])))) (SName list_sortBy_xs3 []))])]))
    (SLet list_sortBy_sort [list_sortBy_sort_b] (SLam list_sortBy_less3 [] (SFn (SNamed list_sortBy_a []) (SFn (SNamed list_sortBy_a []) SBool)) (SFold (SFn (SNamed list_List [(SNamed list_sortBy_sort_b [])]) (SFn (SNamed list_List [(SNamed list_sortBy_a [])]) (SNamed list_List [(SNamed list_sortBy_a [])]))) list_sortBy_counter2
     (SLam list_sortBy_list2 [] (SNamed list_List [(SNamed list_sortBy_a [])]) (SMatch true (SName list_sortBy_counter2 []) [(list_Nil, [], SName list_Nil [(SNamed list_sortBy_a [])]);
      (list_Cons, [list_sortBy__2; list_sortBy_recurse2], SIf (SBinary (SApply (SName list_length [(SNamed list_sortBy_a [])]) (SName list_sortBy_list2 [])) LessEq (SNumber 1)) (SName list_sortBy_list2 [])
      (SMatch false (SApply (SName list_sortBy_split []) (SName list_sortBy_list2 [])) [(list_Tuple2, [list_sortBy_as; list_sortBy_bs], SLet list_sortBy_as2 [] (SApply (SName list_sortBy_recurse2 []) (SName list_sortBy_as []))
    (SLet list_sortBy_bs2 [] (SApply (SName list_sortBy_recurse2 []) (SName list_sortBy_bs []))
    (SApply (SApply (SApply (SName list_sortBy_merge2 []) (SName list_sortBy_less3 [])) (SName list_sortBy_as2 [])) (SName list_sortBy_bs2 []))))]))]))))
    (SLam list_sortBy_less4 [] (SFn (SNamed list_sortBy_a []) (SFn (SNamed list_sortBy_a []) SBool)) (SLam list_sortBy_list3 [] (SNamed list_List [(SNamed list_sortBy_a [])]) (SApply (SApply (SApply (SName list_sortBy_sort [(SNamed list_sortBy_a [])]) (SName list_sortBy_less4 [])) (SName list_sortBy_list3 [])) (SName list_sortBy_list3 []))))))).
Definition it_list_sortBy : item := IVal list_sortBy [list_sortBy_a] (SFn (SFn (SNamed list_sortBy_a []) (SFn (SNamed list_sortBy_a []) SBool)) (SFn (SNamed list_List [(SNamed list_sortBy_a [])]) (SNamed list_List [(SNamed list_sortBy_a [])]))) (Some [115%N; 111%N; 114%N; 116%N; 66%N; 121%N]) (inr e_list_sortBy).
(** std/list.tic:284-299 *)
Definition e_list_join : sexpr :=
  SLet list_join_go [] (SLam list_join_sep [] SString (SFold (SFn (SNamed list_List [SString]) SString) list_join_l
     (SMatch true (SName list_join_l []) [(list_Nil, [], SStr []);
      (list_Cons, [list_join_x; list_join_xs], SApply (SApply (SName intrinsics_stringConcat []) (SName list_join_sep [])) (SParen (SApply (SApply (SName intrinsics_stringConcat []) (SName list_join_x [])) (SName list_join_xs []))))])))
    (SLam list_join_sep2 [] SString (SLam list_join_l2 [] (SNamed list_List [SString]) (SMatch false (SName list_join_l2 []) [(list_Nil, [], SStr []);
      (list_Cons, [list_join_x2; list_join_xs2], SMatch false (SName list_join_xs2 []) [(list_Nil, [], SName list_join_x2 []);
      (list_Cons, [list_join__; list_join__2], SApply (SApply (SName intrinsics_stringConcat []) (SName list_join_x2 [])) (SParen (SApply (SApply (SName list_join_go []) (SName list_join_sep2 [])) (SName list_join_xs2 []))))])]))).
Definition it_list_join : item := IVal list_join [] (SFn SString (SFn (SNamed list_List [SString]) SString)) (Some [106%N; 111%N; 105%N; 110%N]) (inr e_list_join).
(** std/list.tic:301 *)
Definition ty_list_RangeState : item := ITy list_RangeState [] [(list_RangeState2, [Some SInt; Some (SNamed list_List [SInt])])].
(** std/list.tic:303-312 *)
Definition e_list_range : sexpr :=
  SLam list_range_start [] SInt (SLam list_range_stop [] SInt (SLet list_range_step [] (SLam list_range_state [] (SNamed list_RangeState []) (SMatch false (SName list_range_state []) [(list_RangeState2, [list_range_i; list_range_acc], SApply (SApply (SName list_RangeState2 []) (SParen (SBinary (SName list_range_i []) Subtract (SNumber 1)))) (SParen (SApply (SApply (SName list_Cons [SInt]) (SName list_range_i [])) (SName list_range_acc []))))]))
    (SLet list_range_steps [] (SBinary (SName list_range_stop []) Subtract (SName list_range_start []))
    (SMatch false (SApply (SApply (SApply (SName intrinsics_iterate [(SNamed list_RangeState [])]) (SName list_range_steps [])) (SName list_range_step [])) (SParen (SApply (SApply (SName list_RangeState2 []) (SParen (SBinary (SName list_range_stop []) Subtract (SNumber 1)))) (SName list_Nil [SInt])))) [(list_RangeState2, [list_range__; list_range_res], SName list_range_res [])])))).
Definition it_list_range : item := IVal list_range [] (SFn SInt (SFn SInt (SNamed list_List [SInt]))) (Some [114%N; 97%N; 110%N; 103%N; 101%N]) (inr e_list_range).
(** std/list.tic:314-324 *)
Definition e_list_zip : sexpr :=
  SLam list_zip_f [] (SFn (SNamed list_zip_a []) (SFn (SNamed list_zip_b []) (SNamed list_zip_c []))) (SFold (SFn (SNamed list_List [(SNamed list_zip_a [])]) (SFn (SNamed list_List [(SNamed list_zip_b [])]) (SNamed list_List [(SNamed list_zip_c [])]))) list_zip_as
     (SLam list_zip_bs [] (SNamed list_List [(SNamed list_zip_b [])]) (SMatch true (SName list_zip_as []) [(list_Nil, [], SName list_Nil [(SNamed list_zip_c [])]);
      (list_Cons, [list_zip_a2; list_zip_as2], SMatch false (SName list_zip_bs []) [(list_Nil, [], SName list_Nil [(SNamed list_zip_c [])]);
      (list_Cons, [list_zip_b2; list_zip_bs2], SApply (SApply (SName list_Cons [(SNamed list_zip_c [])]) (SParen (SApply (SApply (SName list_zip_f []) (SName list_zip_a2 [])) (SName list_zip_b2 [])))) (SParen (SApply (SName list_zip_as2 []) (SName list_zip_bs2 []))))])]))).
Definition it_list_zip : item := IVal list_zip [list_zip_a; list_zip_b; list_zip_c] (SFn (SFn (SNamed list_zip_a []) (SFn (SNamed list_zip_b []) (SNamed list_zip_c []))) (SFn (SNamed list_List [(SNamed list_zip_a [])]) (SFn (SNamed list_List [(SNamed list_zip_b [])]) (SNamed list_List [(SNamed list_zip_c [])])))) (Some [122%N; 105%N; 112%N]) (inr e_list_zip).
(** std/list.tic:326-331 *)
Definition e_list_flatMap : sexpr :=
  SLam list_flatMap_f [] (SFn (SNamed list_flatMap_a []) (SNamed list_List [(SNamed list_flatMap_b [])])) (SFold (SFn (SNamed list_List [(SNamed list_flatMap_a [])]) (SNamed list_List [(SNamed list_flatMap_b [])])) list_flatMap_list
     (SMatch true (SName list_flatMap_list []) [(list_Nil, [], SName list_Nil [(SNamed list_flatMap_b [])]);
      (list_Cons, [list_flatMap_x; list_flatMap_xs], SApply (SApply (SName list_concat [(SNamed list_flatMap_b [])]) (SParen (SApply (SName list_flatMap_f []) (SName list_flatMap_x [])))) (SName list_flatMap_xs []))])).
Definition it_list_flatMap : item := IVal list_flatMap [list_flatMap_a; list_flatMap_b] (SFn (SFn (SNamed list_flatMap_a []) (SNamed list_List [(SNamed list_flatMap_b [])])) (SFn (SNamed list_List [(SNamed list_flatMap_a [])]) (SNamed list_List [(SNamed list_flatMap_b [])]))) (Some [102%N; 108%N; 97%N; 116%N; 77%N; 97%N; 112%N]) (inr e_list_flatMap).
(** std/list.tic:333-338 *)
Definition e_list_flatten : sexpr :=
  SFold (SFn (SNamed list_List [(SNamed list_List [(SNamed list_flatten_a [])])]) (SNamed list_List [(SNamed list_flatten_a [])])) list_flatten_list
     (SMatch true (SName list_flatten_list []) [(list_Nil, [], SName list_Nil [(SNamed list_flatten_a [])]);
      (list_Cons, [list_flatten_x; list_flatten_xs], SApply (SApply (SName list_concat [(SNamed list_flatten_a [])]) (SName list_flatten_x [])) (SName list_flatten_xs []))]).
Definition it_list_flatten : item := IVal list_flatten [list_flatten_a] (SFn (SNamed list_List [(SNamed list_List [(SNamed list_flatten_a [])])]) (SNamed list_List [(SNamed list_flatten_a [])])) (Some [102%N; 108%N; 97%N; 116%N; 116%N; 101%N; 110%N]) (inr e_list_flatten).
Definition mod_list : list item := [IImport [(key_intrinsics, mod_intrinsics)]; IImport [(key_option, mod_option)]; IImport [(key_result, mod_result)]; ty_list_List; it_list_map; it_list_filter; it_list_sum; it_list_product; it_list_any; it_list_all; it_list_head; it_list_tail; it_list_reverse; it_list_max; it_list_min; it_list_maxBy; it_list_minBy; it_list_allSome; it_list_allOk; it_list_skip; ty_list_TakeState; it_list_take; it_list_length; it_list_foldr; it_list_foldl; it_list_repeat; it_list_filterMap; it_list_concat; ty_list_Tuple; it_list_sortBy; it_list_join; ty_list_RangeState; it_list_range; it_list_zip; it_list_flatMap; it_list_flatten].

(** ** std/string *)
(** std/string.tic:4-5 *)
Definition e_string_length : sexpr :=
  SLam string_length_s [] SString (SApply (SName intrinsics_stringLength []) (SName string_length_s [])).
Definition it_string_length : item := IVal string_length [] (SFn SString SInt) (Some [108%N; 101%N; 110%N; 103%N; 116%N; 104%N]) (inr e_string_length).
(** std/string.tic:7-8 *)
Definition e_string_concat : sexpr :=
  SLam string_concat_a [] SString (SLam string_concat_b [] SString (SApply (SApply (SName intrinsics_stringConcat []) (SName string_concat_a [])) (SName string_concat_b []))).
Definition it_string_concat : item := IVal string_concat [] (SFn SString (SFn SString SString)) (Some [99%N; 111%N; 110%N; 99%N; 97%N; 116%N]) (inr e_string_concat).
(** std/string.tic:10-11 *)
Definition e_string_charAt : sexpr :=
  SLam string_charAt_idx [] SInt (SLam string_charAt_s [] SString (SApply (SApply (SName intrinsics_stringCharAt []) (SName string_charAt_idx [])) (SName string_charAt_s []))).
Definition it_string_charAt : item := IVal string_charAt [] (SFn SInt (SFn SString SInt)) (Some [99%N; 104%N; 97%N; 114%N; 65%N; 116%N]) (inr e_string_charAt).
(** std/string.tic:13-14 *)
Definition e_string_substring : sexpr :=
  SLam string_substring_start [] SInt (SLam string_substring_len [] SInt (SLam string_substring_s [] SString (SApply (SApply (SApply (SName intrinsics_stringSubstring []) (SName string_substring_start [])) (SName string_substring_len [])) (SName string_substring_s [])))).
Definition it_string_substring : item := IVal string_substring [] (SFn SInt (SFn SInt (SFn SString SString))) (Some [115%N; 117%N; 98%N; 115%N; 116%N; 114%N; 105%N; 110%N; 103%N]) (inr e_string_substring).
(** std/string.tic:16-17 *)
Definition e_string_fromChar : sexpr :=
  SLam string_fromChar_c [] SInt (SApply (SName intrinsics_stringFromChar []) (SName string_fromChar_c [])).
Definition it_string_fromChar : item := IVal string_fromChar [] (SFn SInt SString) (Some [102%N; 114%N; 111%N; 109%N; 67%N; 104%N; 97%N; 114%N]) (inr e_string_fromChar).
(** std/string.tic:19 *)
Definition ty_string_SplitState : item := ITy string_SplitState [] [(string_SplitState2, [Some SInt; Some SInt; Some (SNamed list_List [SString])])].
(** std/string.tic:21-38 *)
Definition e_string_split : sexpr :=
  SLam string_split_char [] SInt (SLam string_split_s [] SString (SLet string_split_step [] (SLam string_split_state [] (SNamed string_SplitState []) (SMatch false (SName string_split_state []) [(string_SplitState2, [string_split_start; string_split_cur; string_split_res], SIf (SBinary (SApply (SApply (SName string_charAt []) (SName string_split_cur [])) (SName string_split_s [])) Equal (SName string_split_char [])) (SLet string_split_item [] (SApply (SApply (SApply (SName string_substring []) (SName string_split_start [])) (SParen (SBinary (SName string_split_cur []) Subtract (SName string_split_start [])))) (SName string_split_s []))
    (SLet string_split_res2 [] (SApply (SApply (SName list_Cons [SString]) (SName string_split_item [])) (SName string_split_res []))
    (SApply (SApply (SApply (SName string_SplitState2 []) (SParen (SBinary (SName string_split_cur []) Add (SNumber 1)))) (SParen (SBinary (SName string_split_cur []) Add (SNumber 1)))) (SName string_split_res2 []))))
      (SApply (SApply (SApply (SName string_SplitState2 []) (SName string_split_start [])) (SParen (SBinary (SName string_split_cur []) Add (SNumber 1)))) (SName string_split_res [])))]))
    (SLet string_split_final [] (SApply (SApply (SApply (SName intrinsics_iterate [(SNamed string_SplitState [])]) (SParen (SApply (SName string_length []) (SName string_split_s [])))) (SName string_split_step [])) (SParen (SApply (SApply (SApply (SName string_SplitState2 []) (SNumber 0)) (SNumber 0)) (SName list_Nil [SString]))))
    (SMatch false (SName string_split_final []) [(string_SplitState2, [string_split_start2; string_split_cur2; string_split_res3], SLet string_split_item2 [] (SApply (SApply (SApply (SName string_substring []) (SName string_split_start2 [])) (SParen (SBinary (SName string_split_cur2 []) Subtract (SName string_split_start2 [])))) (SName string_split_s []))
    (SApply (SName list_reverse [SString]) (SParen (SApply (SApply (SName list_Cons [SString]) (SName string_split_item2 [])) (SName string_split_res3 [])))))])))).
Definition it_string_split : item := IVal string_split [] (SFn SInt (SFn SString (SNamed list_List [SString]))) (Some [115%N; 112%N; 108%N; 105%N; 116%N]) (inr e_string_split).
(** std/string.tic:40-67 *)
Definition e_string_lines : sexpr :=
  SLam string_lines_s [] SString (SLet string_lines_extractLine [] (SLam string_lines_start [] SInt (SLam string_lines_len [] SInt (SLet string_lines_line [] (SApply (SApply (SApply (SName string_substring []) (SName string_lines_start [])) (SName string_lines_len [])) (SName string_lines_s []))
    (SIf (SBinary (SApply (SApply (SName string_charAt []) (SParen (SBinary (SApply (SName string_length []) (SName string_lines_line [])) Subtract (SNumber 1)))) (SName string_lines_line [])) Equal (SNumber 13)) (SApply (SApply (SApply (SName string_substring []) (SNumber 0)) (SParen (SBinary (SApply (SName string_length []) (SName string_lines_line [])) Subtract (SNumber 1)))) (SName string_lines_line []))
      (SName string_lines_line [])))))
    (SLet string_lines_step [] (SLam string_lines_state [] (SNamed string_SplitState []) (SMatch false (SName string_lines_state []) [(string_SplitState2, [string_lines_start2; string_lines_cur; string_lines_res], SIf (SBinary (SApply (SApply (SName string_charAt []) (SName string_lines_cur [])) (SName string_lines_s [])) Equal (SNumber 10)) (SLet string_lines_item [] (SApply (SApply (SName string_lines_extractLine []) (SName string_lines_start2 [])) (SParen (SBinary (SName string_lines_cur []) Subtract (SName string_lines_start2 []))))
    (SLet string_lines_res2 [] (SApply (SApply (SName list_Cons [SString]) (SName string_lines_item [])) (SName string_lines_res []))
    (SApply (SApply (SApply (SName string_SplitState2 []) (SParen (SBinary (SName string_lines_cur []) Add (SNumber 1)))) (SParen (SBinary (SName string_lines_cur []) Add (SNumber 1)))) (SName string_lines_res2 []))))
      (SApply (SApply (SApply (SName string_SplitState2 []) (SName string_lines_start2 [])) (SParen (SBinary (SName string_lines_cur []) Add (SNumber 1)))) (SName string_lines_res [])))]))
    (SLet string_lines_final [] (SApply (SApply (SApply (SName intrinsics_iterate [(SNamed string_SplitState [])]) (SParen (SApply (SName string_length []) (SName string_lines_s [])))) (SName string_lines_step [])) (SParen (SApply (SApply (SApply (SName string_SplitState2 []) (SNumber 0)) (SNumber 0)) (SName list_Nil [SString]))))
    (SMatch false (SName string_lines_final []) [(string_SplitState2, [string_lines_start3; string_lines_cur2; string_lines_res3], SIf (SBinary (SName string_lines_start3 []) Equal (SName string_lines_cur2 [])) (SApply (SName list_reverse [SString]) (SName string_lines_res3 []))
      (SLet string_lines_item2 [] (SApply (SApply (SApply (SName string_substring []) (SName string_lines_start3 [])) (SParen (SBinary (SName string_lines_cur2 []) Subtract (SName string_lines_start3 [])))) (SName string_lines_s []))
    (SApply (SName list_reverse [SString]) (SParen (SApply (SApply (SName list_Cons [SString]) (SName string_lines_item2 [])) (SName string_lines_res3 []))))))])))).
Definition it_string_lines : item := IVal string_lines [] (SFn SString (SNamed list_List [SString])) (Some [108%N; 105%N; 110%N; 101%N; 115%N]) (inr e_string_lines).
(** std/string.tic:69 *)
Definition ty_string_FoldState : item := ITy string_FoldState [string_FoldState_a] [(string_FoldState2, [Some SInt; Some (SNamed string_FoldState_a [])])].
(** std/string.tic:71-80 *)
Definition e_string_foldChars : sexpr :=
  SLam string_foldChars_init [] (SNamed string_foldChars_a []) (SLam string_foldChars_f [] (SFn (SNamed string_foldChars_a []) (SFn SInt (SNamed string_foldChars_a []))) (SLam string_foldChars_s [] SString (SLet string_foldChars_step [] (SLam string_foldChars_state [] (SNamed string_FoldState [(SNamed string_foldChars_a [])]) (SMatch false (SName string_foldChars_state []) [(string_FoldState2, [string_foldChars_idx; string_foldChars_acc], SLet string_foldChars_acc2 [] (SApply (SApply (SName string_foldChars_f []) (SName string_foldChars_acc [])) (SParen (SApply (SApply (SName string_charAt []) (SName string_foldChars_idx [])) (SName string_foldChars_s []))))
    (SApply (SApply (SName string_FoldState2 [(SNamed string_foldChars_a [])]) (SParen (SBinary (SName string_foldChars_idx []) Add (SNumber 1)))) (SName string_foldChars_acc2 [])))]))
    (SMatch false (SApply (SApply (SApply (SName intrinsics_iterate [(SNamed string_FoldState [(SNamed string_foldChars_a [])])]) (SParen (SApply (SName string_length []) (SName string_foldChars_s [])))) (SName string_foldChars_step [])) (SParen (SApply (SApply (SName string_FoldState2 [(SNamed string_foldChars_a [])]) (SNumber 0)) (SName string_foldChars_init [])))) [(string_FoldState2, [string_foldChars__; string_foldChars_res], SName string_foldChars_res [])])))).
Definition it_string_foldChars : item := IVal string_foldChars [string_foldChars_a] (SFn (SNamed string_foldChars_a []) (SFn (SFn (SNamed string_foldChars_a []) (SFn SInt (SNamed string_foldChars_a []))) (SFn SString (SNamed string_foldChars_a [])))) (Some [102%N; 111%N; 108%N; 100%N; 67%N; 104%N; 97%N; 114%N; 115%N]) (inr e_string_foldChars).
(** std/string.tic:82 *)
Definition ty_string_CompareState : item := ITy string_CompareState [] [(string_Comparing, [Some SInt]); (string_Unequal, [])].
(** std/string.tic:84-101 *)
Definition e_string_equal : sexpr :=
  SLam string_equal_a [] SString (SLam string_equal_b [] SString (SIf (SBinary (SApply (SName string_length []) (SName string_equal_a [])) NotEqual (SApply (SName string_length []) (SName string_equal_b []))) (SBoolean false)
      (SLet string_equal_step [] (SLam string_equal_state [] (SNamed string_CompareState []) (SMatch false (SName string_equal_state []) [(string_Comparing, [string_equal_idx], SIf (SBinary (SApply (SApply (SName string_charAt []) (SName string_equal_idx [])) (SName string_equal_a [])) Equal (SApply (SApply (SName string_charAt []) (SName string_equal_idx [])) (SName string_equal_b []))) (SApply (SName string_Comparing []) (SParen (SBinary (SName string_equal_idx []) Add (SNumber 1))))
      (SName string_Unequal []));
      (string_Unequal, [], SName string_Unequal [])]))
    (SMatch false (SApply (SApply (SApply (SName intrinsics_iterate [(SNamed string_CompareState [])]) (SParen (SApply (SName string_length []) (SName string_equal_a [])))) (SName string_equal_step [])) (SParen (SApply (SName string_Comparing []) (SNumber 0)))) [(string_Comparing, [string_equal__], SBoolean true);
      (string_Unequal, [], SBoolean false)])))).
Definition it_string_equal : item := IVal string_equal [] (SFn SString (SFn SString SBool)) (Some [101%N; 113%N; 117%N; 97%N; 108%N]) (inr e_string_equal).
(** std/string.tic:103-109 *)
Definition e_string_startsWith : sexpr :=
  SLam string_startsWith_prefix [] SString (SLam string_startsWith_s [] SString (SIf (SBinary (SApply (SName string_length []) (SName string_startsWith_s [])) Less (SApply (SName string_length []) (SName string_startsWith_prefix []))) (SBoolean false)
      (SLet string_startsWith_p [] (SApply (SApply (SApply (SName string_substring []) (SNumber 0)) (SParen (SApply (SName string_length []) (SName string_startsWith_prefix [])))) (SName string_startsWith_s []))
    (SApply (SApply (SName string_equal []) (SName string_startsWith_p [])) (SName string_startsWith_prefix []))))).
Definition it_string_startsWith : item := IVal string_startsWith [] (SFn SString (SFn SString SBool)) (Some [115%N; 116%N; 97%N; 114%N; 116%N; 115%N; 87%N; 105%N; 116%N; 104%N]) (inr e_string_startsWith).
(** std/string.tic:111-115 *)
Definition e_string_chars : sexpr :=
  SLam string_chars_s [] SString (SPipe (SPipe (SName string_chars_s []) (SApply (SApply (SName string_foldChars [(SNamed list_List [SInt])]) (SName list_Nil [SInt])) (SParen (SLam string_chars_a [] (SNamed list_List [SInt]) (SLam string_chars_b [] SInt (SApply (SApply (SName list_Cons [SInt]) (SName string_chars_b [])) (SName string_chars_a []))))))) (SName list_reverse [SInt])).
Definition it_string_chars : item := IVal string_chars [] (SFn SString (SNamed list_List [SInt])) (Some [99%N; 104%N; 97%N; 114%N; 115%N]) (inr e_string_chars).
(** std/string.tic:117 *)
Definition ty_string_TrimState : item := ITy string_TrimState [] [(string_TrimStart, [Some SInt]); (string_TrimDone, [Some SInt])].
(** std/string.tic:119-137 *)
Definition e_string_trim : sexpr :=
  SLet string_trim_trailingSpaces [] (SLam string_trim_s [] SString (SApply (SApply (SApply (SName string_foldChars [SInt]) (SNumber 0)) (SParen (SLam string_trim_acc [] SInt (SLam string_trim_c [] SInt (SIf (SBinary (SName string_trim_c []) Equal (SNumber 32)) (SBinary (SName string_trim_acc []) Add (SNumber 1))
      (SNumber 0)))))) (SName string_trim_s [])))
    (SLet string_trim_leadingSpaces [] (SLet string_trim_addChar [] (SLam string_trim_state [] (SNamed string_TrimState []) (SLam string_trim_c2 [] SInt (SMatch false (SName string_trim_state []) [(string_TrimStart, [string_trim_x], SIf (SBinary (SName string_trim_c2 []) Equal (SNumber 32)) (SApply (SName string_TrimStart []) (SParen (SBinary (SName string_trim_x []) Add (SNumber 1))))
      (SApply (SName string_TrimDone []) (SName string_trim_x [])));
      (string_TrimDone, [string_trim_x2], SApply (SName string_TrimDone []) (SName string_trim_x2 []))])))
    (SLam string_trim_s2 [] SString (SMatch false (SApply (SApply (SApply (SName string_foldChars [(SNamed string_TrimState [])]) (SParen (SApply (SName string_TrimStart []) (SNumber 0)))) (SName string_trim_addChar [])) (SName string_trim_s2 [])) [(string_TrimStart, [string_trim_x3], SName string_trim_x3 []);
      (string_TrimDone, [string_trim_x4], SName string_trim_x4 [])])))
    (SLam string_trim_s3 [] SString (SLet string_trim_t [] (SApply (SName string_trim_trailingSpaces []) (SName string_trim_s3 []))
    (SLet string_trim_s4 [] (SApply (SApply (SApply (SName string_substring []) (SNumber 0)) (SParen (SBinary (SApply (SName string_length []) (SName string_trim_s3 [])) Subtract (SName string_trim_t [])))) (SName string_trim_s3 []))
    (SLet string_trim_l [] (SApply (SName string_trim_leadingSpaces []) (SName string_trim_s4 []))
    (SApply (SApply (SApply (SName string_substring []) (SName string_trim_l [])) (SParen (SBinary (SApply (SName string_length []) (SName string_trim_s4 [])) Subtract (SName string_trim_l [])))) (SName string_trim_s4 []))))))).
Definition it_string_trim : item := IVal string_trim [] (SFn SString SString) (Some [116%N; 114%N; 105%N; 109%N]) (inr e_string_trim).
(** std/string.tic:139 *)
Definition e_string_newline : sexpr :=
  SApply (SName string_fromChar []) (SNumber 10).
Definition it_string_newline : item := IVal string_newline [] SString (Some [110%N; 101%N; 119%N; 108%N; 105%N; 110%N; 101%N]) (inr e_string_newline).
Definition mod_string : list item := [IImport [(key_intrinsics, mod_intrinsics)]; IImport [(key_list, mod_list)]; it_string_length; it_string_concat; it_string_charAt; it_string_substring; it_string_fromChar; ty_string_SplitState; it_string_split; it_string_lines; ty_string_FoldState; it_string_foldChars; ty_string_CompareState; it_string_equal; it_string_startsWith; it_string_chars; ty_string_TrimState; it_string_trim; it_string_newline].

(** ** std/int *)
(** std/int.tic:5-6 *)
Definition e_int_iterate : sexpr :=
  SLam int_iterate_x [] SInt (SLam int_iterate_f [] (SFn (SNamed int_iterate_a []) (SNamed int_iterate_a [])) (SLam int_iterate_init [] (SNamed int_iterate_a []) (SApply (SApply (SApply (SName intrinsics_iterate [(SNamed int_iterate_a [])]) (SName int_iterate_x [])) (SName int_iterate_f [])) (SName int_iterate_init [])))).
Definition it_int_iterate : item := IVal int_iterate [int_iterate_a] (SFn SInt (SFn (SFn (SNamed int_iterate_a []) (SNamed int_iterate_a [])) (SFn (SNamed int_iterate_a []) (SNamed int_iterate_a [])))) (Some [105%N; 116%N; 101%N; 114%N; 97%N; 116%N; 101%N]) (inr e_int_iterate).
(** std/int.tic:8-9 *)
Definition e_int_toString : sexpr :=
  SLam int_toString_x [] SInt (SApply (SName intrinsics_intToString []) (SName int_toString_x [])).
Definition it_int_toString : item := IVal int_toString [] (SFn SInt SString) (Some [116%N; 111%N; 83%N; 116%N; 114%N; 105%N; 110%N; 103%N]) (inr e_int_toString).
(** std/int.tic:11 *)
Definition ty_int_ParseState : item := ITy int_ParseState [] [(int_Parsing, [Some SInt; Some SInt]); (int_Error, [])].
(** std/int.tic:13 *)
Definition ty_int_ParseErr : item := ITy int_ParseErr [] [(int_ParseErr2, [])].
(** std/int.tic:15-35 *)
Definition e_int_parse : sexpr :=
  SLam int_parse_s [] SString (SLet int_parse_step [] (SLam int_parse_state [] (SNamed int_ParseState []) (SLam int_parse_ch [] SInt (SMatch false (SName int_parse_state []) [(int_Parsing, [int_parse_idx; int_parse_acc], SIf (SBinary (SName int_parse_ch []) Less (SNumber 48)) (SName int_Error [])
      (SIf (SBinary (SName int_parse_ch []) GreaterEq (SNumber 58)) (SName int_Error [])
      (SApply (SApply (SName int_Parsing []) (SParen (SBinary (SName int_parse_idx []) Add (SNumber 1)))) (SParen (SBinary (SBinary (SName int_parse_acc []) Multiply (SNumber 10)) Add (SParen (SBinary (SName int_parse_ch []) Subtract (SNumber 48))))))));
      (int_Error, [], SName int_Error [])])))
    (SIf (SBinary (SApply (SName string_length []) (SName int_parse_s [])) Equal (SNumber 0)) (SApply (SName result_Err [SInt; (SNamed int_ParseErr [])]) (SName int_ParseErr2 []))
      (SMatch false (SApply (SApply (SApply (SName string_foldChars [(SNamed int_ParseState [])]) (SParen (SApply (SApply (SName int_Parsing []) (SNumber 0)) (SNumber 0)))) (SName int_parse_step [])) (SName int_parse_s [])) [(int_Parsing, [int_parse__; int_parse_acc2], SApply (SName result_Ok [SInt; (SNamed int_ParseErr [])]) (SName int_parse_acc2 []));
      (int_Error, [], SApply (SName result_Err [SInt; (SNamed int_ParseErr [])]) (SName int_ParseErr2 []))]))).
Definition it_int_parse : item := IVal int_parse [] (SFn SString (SNamed result_Result [SInt; (SNamed int_ParseErr [])])) (Some [112%N; 97%N; 114%N; 115%N; 101%N]) (inr e_int_parse).
(** std/int.tic:37-42 *)
Definition e_int_min : sexpr :=
  SLam int_min_a [] SInt (SLam int_min_b [] SInt (SIf (SBinary (SName int_min_a []) Less (SName int_min_b [])) (SName int_min_a [])
      (SName int_min_b []))).
Definition it_int_min : item := IVal int_min [] (SFn SInt (SFn SInt SInt)) (Some [109%N; 105%N; 110%N]) (inr e_int_min).
(** std/int.tic:44-49 *)
Definition e_int_max : sexpr :=
  SLam int_max_a [] SInt (SLam int_max_b [] SInt (SIf (SBinary (SName int_max_a []) Greater (SName int_max_b [])) (SName int_max_a [])
      (SName int_max_b []))).
Definition it_int_max : item := IVal int_max [] (SFn SInt (SFn SInt SInt)) (Some [109%N; 97%N; 120%N]) (inr e_int_max).
(** std/int.tic:51 *)
Definition ty_int_GcdState : item := ITy int_GcdState [] [(int_GcdState2, [Some SInt; Some SInt])].
(** std/int.tic:53-65 *)
Definition e_int_gcd : sexpr :=
  SLet int_gcd_stepState [] (SLam int_gcd_state [] (SNamed int_GcdState []) (SMatch false (SName int_gcd_state []) [(int_GcdState2, [int_gcd_a; int_gcd_b], SIf (SBinary (SName int_gcd_b []) Equal (SNumber 0)) (SName int_gcd_state [])
      (SApply (SApply (SName int_GcdState2 []) (SName int_gcd_b [])) (SParen (SBinary (SName int_gcd_a []) Modulo (SName int_gcd_b [])))))]))
    (SLam int_gcd_a2 [] SInt (SLam int_gcd_b2 [] SInt (SMatch false (SApply (SApply (SApply (SName intrinsics_iterate [(SNamed int_GcdState [])]) (SNumber 65)) (SName int_gcd_stepState [])) (SParen (SApply (SApply (SName int_GcdState2 []) (SName int_gcd_a2 [])) (SName int_gcd_b2 [])))) [(int_GcdState2, [int_gcd_x; int_gcd__], SName int_gcd_x [])]))).
Definition it_int_gcd : item := IVal int_gcd [] (SFn SInt (SFn SInt SInt)) (Some [103%N; 99%N; 100%N]) (inr e_int_gcd).
(** std/int.tic:67-68 *)
Definition e_int_lcm : sexpr :=
  SLam int_lcm_a [] SInt (SLam int_lcm_b [] SInt (SBinary (SBinary (SName int_lcm_a []) Divide (SParen (SApply (SApply (SName int_gcd []) (SName int_lcm_a [])) (SName int_lcm_b [])))) Multiply (SName int_lcm_b []))).
Definition it_int_lcm : item := IVal int_lcm [] (SFn SInt (SFn SInt SInt)) (Some [108%N; 99%N; 109%N]) (inr e_int_lcm).
(** std/int.tic:70-74 *)
Definition e_int_bitXor : sexpr :=
  SLet int_bitXor_go [] (SLam int_bitXor_recurse [] (SFn SInt (SFn SInt SInt)) (SLam int_bitXor_a [] SInt (SLam int_bitXor_b [] SInt (SLet int_bitXor_low [] (SBinary (SParen (SBinary (SName int_bitXor_a []) Add (SName int_bitXor_b []))) Modulo (SNumber 2))
    (SBinary (SBinary (SApply (SApply (SName int_bitXor_recurse []) (SParen (SBinary (SName int_bitXor_a []) Divide (SNumber 2)))) (SParen (SBinary (SName int_bitXor_b []) Divide (SNumber 2)))) Multiply (SNumber 2)) Add (SName int_bitXor_low []))))))
    (SApply (SApply (SApply (SName int_iterate [(SFn SInt (SFn SInt SInt))]) (SNumber 64)) (SName int_bitXor_go [])) (SParen (SLam int_bitXor__ [] SInt (SLam int_bitXor__2 [] SInt (SNumber 0))))).
Definition it_int_bitXor : item := IVal int_bitXor [] (SFn SInt (SFn SInt SInt)) (Some [98%N; 105%N; 116%N; 88%N; 111%N; 114%N]) (inr e_int_bitXor).
(** std/int.tic:76-80 *)
Definition e_int_bitAnd : sexpr :=
  SLet int_bitAnd_go [] (SLam int_bitAnd_recurse [] (SFn SInt (SFn SInt SInt)) (SLam int_bitAnd_a [] SInt (SLam int_bitAnd_b [] SInt (SLet int_bitAnd_low [] (SBinary (SBinary (SBinary (SName int_bitAnd_a []) Modulo (SNumber 2)) Multiply (SName int_bitAnd_b [])) Modulo (SNumber 2))
    (SBinary (SBinary (SApply (SApply (SName int_bitAnd_recurse []) (SParen (SBinary (SName int_bitAnd_a []) Divide (SNumber 2)))) (SParen (SBinary (SName int_bitAnd_b []) Divide (SNumber 2)))) Multiply (SNumber 2)) Add (SName int_bitAnd_low []))))))
    (SApply (SApply (SApply (SName int_iterate [(SFn SInt (SFn SInt SInt))]) (SNumber 64)) (SName int_bitAnd_go [])) (SParen (SLam int_bitAnd__ [] SInt (SLam int_bitAnd__2 [] SInt (SNumber 0))))).
Definition it_int_bitAnd : item := IVal int_bitAnd [] (SFn SInt (SFn SInt SInt)) (Some [98%N; 105%N; 116%N; 65%N; 110%N; 100%N]) (inr e_int_bitAnd).
(** std/int.tic:82-86 *)
Definition e_int_bitOr : sexpr :=
  SLet int_bitOr_go [] (SLam int_bitOr_recurse [] (SFn SInt (SFn SInt SInt)) (SLam int_bitOr_a [] SInt (SLam int_bitOr_b [] SInt (SLet int_bitOr_low [] (SIf (SBinary (SBinary (SName int_bitOr_a []) Modulo (SNumber 2)) Equal (SNumber 1)) (SNumber 1)
      (SBinary (SName int_bitOr_b []) Modulo (SNumber 2)))
    (SBinary (SBinary (SApply (SApply (SName int_bitOr_recurse []) (SParen (SBinary (SName int_bitOr_a []) Divide (SNumber 2)))) (SParen (SBinary (SName int_bitOr_b []) Divide (SNumber 2)))) Multiply (SNumber 2)) Add (SName int_bitOr_low []))))))
    (SApply (SApply (SApply (SName int_iterate [(SFn SInt (SFn SInt SInt))]) (SNumber 64)) (SName int_bitOr_go [])) (SParen (SLam int_bitOr__ [] SInt (SLam int_bitOr__2 [] SInt (SNumber 0))))).
Definition it_int_bitOr : item := IVal int_bitOr [] (SFn SInt (SFn SInt SInt)) (Some [98%N; 105%N; 116%N; 79%N; 114%N]) (inr e_int_bitOr).
Definition mod_int : list item := [IImport [(key_intrinsics, mod_intrinsics)]; IImport [(key_result, mod_result)]; IImport [(key_string, mod_string)]; it_int_iterate; it_int_toString; ty_int_ParseState; ty_int_ParseErr; it_int_parse; it_int_min; it_int_max; ty_int_GcdState; it_int_gcd; it_int_lcm; it_int_bitXor; it_int_bitAnd; it_int_bitOr].

(** ** std/array *)
(** std/array.tic:5 *)
Definition ty_array_ArrayData : item := ITy array_ArrayData [array_ArrayData_a] [(array_Leaf, [Some (SNamed array_ArrayData_a []); Some (SNamed array_ArrayData_a []); Some (SNamed array_ArrayData_a []); Some (SNamed array_ArrayData_a [])]); (array_Node, [None; None; None; None])].
(** std/array.tic:7-20 *)
Definition e_array_mapLeaf : sexpr :=
  SLam array_mapLeaf_idx [] SInt (SLam array_mapLeaf_f [] (SFn (SNamed array_mapLeaf_a []) (SNamed array_mapLeaf_a [])) (SLam array_mapLeaf_arr [] (SNamed array_ArrayData [(SNamed array_mapLeaf_a [])]) (SMatch false (SName array_mapLeaf_arr []) [(array_Leaf, [array_mapLeaf_a2; array_mapLeaf_b; array_mapLeaf_c; array_mapLeaf_d], SIf (SBinary (SName array_mapLeaf_idx []) Equal (SNumber 0)) (SApply (SApply (SApply (SApply (SName array_Leaf [(SNamed array_mapLeaf_a [])]) (SParen (SApply (SName array_mapLeaf_f []) (SName array_mapLeaf_a2 [])))) (SName array_mapLeaf_b [])) (SName array_mapLeaf_c [])) (SName array_mapLeaf_d []))
      (SIf (SBinary (SName array_mapLeaf_idx []) Equal (SNumber 1)) (SApply (SApply (SApply (SApply (SName array_Leaf [(SNamed array_mapLeaf_a [])]) (SName array_mapLeaf_a2 [])) (SParen (SApply (SName array_mapLeaf_f []) (SName array_mapLeaf_b [])))) (SName array_mapLeaf_c [])) (SName array_mapLeaf_d []))
      (SIf (SBinary (SName array_mapLeaf_idx []) Equal (SNumber 2)) (SApply (SApply (SApply (SApply (SName array_Leaf [(SNamed array_mapLeaf_a [])]) (SName array_mapLeaf_a2 [])) (SName array_mapLeaf_b [])) (SParen (SApply (SName array_mapLeaf_f []) (SName array_mapLeaf_c [])))) (SName array_mapLeaf_d []))
      (SApply (SApply (SApply (SApply (SName array_Leaf [(SNamed array_mapLeaf_a [])]) (SName array_mapLeaf_a2 [])) (SName array_mapLeaf_b [])) (SName array_mapLeaf_c [])) (SParen (SApply (SName array_mapLeaf_f []) (SName array_mapLeaf_d [])))))));
      (array_Node, [array_mapLeaf__; array_mapLeaf__2; array_mapLeaf__3; array_mapLeaf__4], SName array_mapLeaf_arr [])]))).
Definition it_array_mapLeaf : item := IVal array_mapLeaf [array_mapLeaf_a] (SFn SInt (SFn (SFn (SNamed array_mapLeaf_a []) (SNamed array_mapLeaf_a [])) (SFn (SNamed array_ArrayData [(SNamed array_mapLeaf_a [])]) (SNamed array_ArrayData [(SNamed array_mapLeaf_a [])])))) (None) (inr e_array_mapLeaf).
(** std/array.tic:22-35 *)
Definition e_array_mapNode : sexpr :=
  SLam array_mapNode_quarter [] SInt (SLam array_mapNode_recurse [] (SFn SInt (SFn (SFn (SNamed array_mapNode_a []) (SNamed array_mapNode_a [])) (SFn (SNamed array_ArrayData [(SNamed array_mapNode_a [])]) (SNamed array_ArrayData [(SNamed array_mapNode_a [])])))) (SLam array_mapNode_idx [] SInt (SLam array_mapNode_f [] (SFn (SNamed array_mapNode_a []) (SNamed array_mapNode_a [])) (SLam array_mapNode_arr [] (SNamed array_ArrayData [(SNamed array_mapNode_a [])]) (SMatch false (SName array_mapNode_arr []) [(array_Leaf, [array_mapNode__; array_mapNode__2; array_mapNode__3; array_mapNode__4], SName array_mapNode_arr []);
      (array_Node, [array_mapNode_a2; array_mapNode_b; array_mapNode_c; array_mapNode_d], SIf (SBinary (SName array_mapNode_idx []) Less (SName array_mapNode_quarter [])) (SApply (SApply (SApply (SApply (SName array_Node [(SNamed array_mapNode_a [])]) (SParen (SApply (SApply (SApply (SName array_mapNode_recurse []) (SName array_mapNode_idx [])) (SName array_mapNode_f [])) (SName array_mapNode_a2 [])))) (SName array_mapNode_b [])) (SName array_mapNode_c [])) (SName array_mapNode_d []))
      (SIf (SBinary (SName array_mapNode_idx []) Less (SBinary (SName array_mapNode_quarter []) Multiply (SNumber 2))) (SApply (SApply (SApply (SApply (SName array_Node [(SNamed array_mapNode_a [])]) (SName array_mapNode_a2 [])) (SParen (SApply (SApply (SApply (SName array_mapNode_recurse []) (SParen (SBinary (SName array_mapNode_idx []) Subtract (SName array_mapNode_quarter [])))) (SName array_mapNode_f [])) (SName array_mapNode_b [])))) (SName array_mapNode_c [])) (SName array_mapNode_d []))
      (SIf (SBinary (SName array_mapNode_idx []) Less (SBinary (SName array_mapNode_quarter []) Multiply (SNumber 3))) (SApply (SApply (SApply (SApply (SName array_Node [(SNamed array_mapNode_a [])]) (SName array_mapNode_a2 [])) (SName array_mapNode_b [])) (SParen (SApply (SApply (SApply (SName array_mapNode_recurse []) (SParen (SBinary (SName array_mapNode_idx []) Subtract (SBinary (SName array_mapNode_quarter []) Multiply (SNumber 2))))) (SName array_mapNode_f [])) (SName array_mapNode_c [])))) (SName array_mapNode_d []))
      (SApply (SApply (SApply (SApply (SName array_Node [(SNamed array_mapNode_a [])]) (SName array_mapNode_a2 [])) (SName array_mapNode_b [])) (SName array_mapNode_c [])) (SParen (SApply (SApply (SApply (SName array_mapNode_recurse []) (SParen (SBinary (SName array_mapNode_idx []) Subtract (SBinary (SName array_mapNode_quarter []) Multiply (SNumber 3))))) (SName array_mapNode_f [])) (SName array_mapNode_d [])))))))]))))).
Definition it_array_mapNode : item := IVal array_mapNode [array_mapNode_a] (SFn SInt (SFn (SFn SInt (SFn (SFn (SNamed array_mapNode_a []) (SNamed array_mapNode_a [])) (SFn (SNamed array_ArrayData [(SNamed array_mapNode_a [])]) (SNamed array_ArrayData [(SNamed array_mapNode_a [])])))) (SFn SInt (SFn (SFn (SNamed array_mapNode_a []) (SNamed array_mapNode_a [])) (SFn (SNamed array_ArrayData [(SNamed array_mapNode_a [])]) (SNamed array_ArrayData [(SNamed array_mapNode_a [])])))))) (None) (inr e_array_mapNode).
(** std/array.tic:37-50 *)
Definition e_array_getLeaf : sexpr :=
  SLam array_getLeaf_idx [] SInt (SLam array_getLeaf_arr [] (SNamed array_ArrayData [(SNamed array_getLeaf_a [])]) (SMatch false (SName array_getLeaf_arr []) [(array_Leaf, [array_getLeaf_a2; array_getLeaf_b; array_getLeaf_c; array_getLeaf_d], SIf (SBinary (SName array_getLeaf_idx []) Equal (SNumber 0)) (SName array_getLeaf_a2 [])
      (SIf (SBinary (SName array_getLeaf_idx []) Equal (SNumber 1)) (SName array_getLeaf_b [])
      (SIf (SBinary (SName array_getLeaf_idx []) Equal (SNumber 2)) (SName array_getLeaf_c [])
      (SName array_getLeaf_d []))));
      (array_Node, [array_getLeaf__; array_getLeaf__2; array_getLeaf__3; array_getLeaf__4], SHole [63%N; 117%N; 110%N; 114%N; 101%N; 97%N; 99%N; 104%N; 97%N; 98%N; 108%N; 101%N] (SNamed array_getLeaf_a []))])).
Definition it_array_getLeaf : item := IVal array_getLeaf [array_getLeaf_a] (SFn SInt (SFn (SNamed array_ArrayData [(SNamed array_getLeaf_a [])]) (SNamed array_getLeaf_a []))) (None) (inr e_array_getLeaf).
(** std/array.tic:52-65 *)
Definition e_array_getNode : sexpr :=
  SLam array_getNode_quarter [] SInt (SLam array_getNode_recurse [] (SFn SInt (SFn (SNamed array_ArrayData [(SNamed array_getNode_a [])]) (SNamed array_getNode_a []))) (SLam array_getNode_idx [] SInt (SLam array_getNode_arr [] (SNamed array_ArrayData [(SNamed array_getNode_a [])]) (SMatch false (SName array_getNode_arr []) [(array_Leaf, [array_getNode_a2; array_getNode__; array_getNode__2; array_getNode__3], SName array_getNode_a2 []);
      (array_Node, [array_getNode_a3; array_getNode_b; array_getNode_c; array_getNode_d], SIf (SBinary (SName array_getNode_idx []) Less (SName array_getNode_quarter [])) (SApply (SApply (SName array_getNode_recurse []) (SName array_getNode_idx [])) (SName array_getNode_a3 []))
      (SIf (SBinary (SName array_getNode_idx []) Less (SBinary (SName array_getNode_quarter []) Multiply (SNumber 2))) (SApply (SApply (SName array_getNode_recurse []) (SParen (SBinary (SName array_getNode_idx []) Subtract (SName array_getNode_quarter [])))) (SName array_getNode_b []))
      (SIf (SBinary (SName array_getNode_idx []) Less (SBinary (SName array_getNode_quarter []) Multiply (SNumber 3))) (SApply (SApply (SName array_getNode_recurse []) (SParen (SBinary (SName array_getNode_idx []) Subtract (SBinary (SName array_getNode_quarter []) Multiply (SNumber 2))))) (SName array_getNode_c []))
      (SApply (SApply (SName array_getNode_recurse []) (SParen (SBinary (SName array_getNode_idx []) Subtract (SBinary (SName array_getNode_quarter []) Multiply (SNumber 3))))) (SName array_getNode_d [])))))])))).
Definition it_array_getNode : item := IVal array_getNode [array_getNode_a] (SFn SInt (SFn (SFn SInt (SFn (SNamed array_ArrayData [(SNamed array_getNode_a [])]) (SNamed array_getNode_a []))) (SFn SInt (SFn (SNamed array_ArrayData [(SNamed array_getNode_a [])]) (SNamed array_getNode_a []))))) (None) (inr e_array_getNode).
(** std/array.tic:67 *)
Definition ty_array_Array : item := ITy array_Array [array_Array_a] [(array_NonEmptyArray, [Some SInt; Some (SNamed array_ArrayData [(SNamed array_Array_a [])]); Some (SFn SInt (SFn (SFn (SNamed array_Array_a []) (SNamed array_Array_a [])) (SFn (SNamed array_ArrayData [(SNamed array_Array_a [])]) (SNamed array_ArrayData [(SNamed array_Array_a [])])))); Some (SFn SInt (SFn (SNamed array_ArrayData [(SNamed array_Array_a [])]) (SNamed array_Array_a [])))]); (array_EmptyArray, [])].
(** std/array.tic:75-80 *)
Definition e_array_length : sexpr :=
  SLam array_length_arr [] (SNamed array_Array [(SNamed array_length_a [])]) (SMatch false (SName array_length_arr []) [(array_NonEmptyArray, [array_length_x; array_length__; array_length__2; array_length__3], SName array_length_x []);
      (array_EmptyArray, [], SNumber 0)]).
Definition it_array_length : item := IVal array_length [array_length_a] (SFn (SNamed array_Array [(SNamed array_length_a [])]) SInt) (Some [108%N; 101%N; 110%N; 103%N; 116%N; 104%N]) (inr e_array_length).
(** std/array.tic:82 *)
Definition e_array_empty : sexpr :=
  SName array_EmptyArray [(SNamed array_empty_a [])].
Definition it_array_empty : item := IVal array_empty [array_empty_a] (SNamed array_Array [(SNamed array_empty_a [])]) (Some [101%N; 109%N; 112%N; 116%N; 121%N]) (inr e_array_empty).
(** std/array.tic:84-100 *)
Definition e_array_new : sexpr :=
  SLam array_new_size [] SInt (SLam array_new_value [] (SNamed array_new_a []) (SLet array_new_grow [] (SLam array_new_arr [] (SNamed array_Array [(SNamed array_new_a [])]) (SMatch false (SName array_new_arr []) [(array_NonEmptyArray, [array_new_size2; array_new_data; array_new_map; array_new_get], SApply (SApply (SApply (SApply (SName array_NonEmptyArray [(SNamed array_new_a [])]) (SParen (SBinary (SName array_new_size2 []) Multiply (SNumber 4)))) (SParen (SApply (SApply (SApply (SApply (SName array_Node [(SNamed array_new_a [])]) (SName array_new_data [])) (SName array_new_data [])) (SName array_new_data [])) (SName array_new_data [])))) (SParen (SApply (SApply (SName array_mapNode [(SNamed array_new_a [])]) (SName array_new_size2 [])) (SName array_new_map [])))) (SParen (SApply (SApply (SName array_getNode [(SNamed array_new_a [])]) (SName array_new_size2 [])) (SName array_new_get []))));
      (array_EmptyArray, [], SName array_EmptyArray [(SNamed array_new_a [])])]))
    (SLet array_new_tryGrow [] (SLam array_new_arr2 [] (SNamed array_Array [(SNamed array_new_a [])]) (SIf (SBinary (SApply (SName array_length [(SNamed array_new_a [])]) (SName array_new_arr2 [])) Less (SName array_new_size [])) (SApply (SName array_new_grow []) (SName array_new_arr2 []))
      (SName array_new_arr2 [])))
    (SLet array_new_singleton [] (SApply (SApply (SApply (SApply (SName array_NonEmptyArray [(SNamed array_new_a [])]) (SNumber 4)) (SParen (SApply (SApply (SApply (SApply (SName array_Leaf [(SNamed array_new_a [])]) (SName array_new_value [])) (SName array_new_value [])) (SName array_new_value [])) (SName array_new_value [])))) (SName array_mapLeaf [(SNamed array_new_a [])])) (SName array_getLeaf [(SNamed array_new_a [])]))
    (SMatch false (SApply (SApply (SApply (SName int_iterate [(SNamed array_Array [(SNamed array_new_a [])])]) (SNumber 64)) (SName array_new_tryGrow [])) (SName array_new_singleton [])) [(array_NonEmptyArray, [array_new__; array_new_data2; array_new_map2; array_new_get2], SApply (SApply (SApply (SApply (SName array_NonEmptyArray [(SNamed array_new_a [])]) (SName array_new_size [])) (SName array_new_data2 [])) (SName array_new_map2 [])) (SName array_new_get2 []));
      (array_EmptyArray, [], SName array_EmptyArray [(SNamed array_new_a [])])]))))).
Definition it_array_new : item := IVal array_new [array_new_a] (SFn SInt (SFn (SNamed array_new_a []) (SNamed array_Array [(SNamed array_new_a [])]))) (Some [110%N; 101%N; 119%N]) (inr e_array_new).
(** std/array.tic:102-111 *)
Definition e_array_mapIdx : sexpr :=
  SLam array_mapIdx_idx [] SInt (SLam array_mapIdx_f [] (SFn (SNamed array_mapIdx_a []) (SNamed array_mapIdx_a [])) (SLam array_mapIdx_arr [] (SNamed array_Array [(SNamed array_mapIdx_a [])]) (SMatch false (SName array_mapIdx_arr []) [(array_NonEmptyArray, [array_mapIdx_size; array_mapIdx_data; array_mapIdx_map; array_mapIdx_get], SIf (SBinary (SName array_mapIdx_idx []) Less (SName array_mapIdx_size [])) (SApply (SApply (SApply (SApply (SName array_NonEmptyArray [(SNamed array_mapIdx_a [])]) (SName array_mapIdx_size [])) (SParen (SApply (SApply (SApply (SName array_mapIdx_map []) (SName array_mapIdx_idx [])) (SName array_mapIdx_f [])) (SName array_mapIdx_data [])))) (SName array_mapIdx_map [])) (SName array_mapIdx_get []))
      (SName array_mapIdx_arr []));
      (array_EmptyArray, [], SName array_mapIdx_arr [])]))).
Definition it_array_mapIdx : item := IVal array_mapIdx [array_mapIdx_a] (SFn SInt (SFn (SFn (SNamed array_mapIdx_a []) (SNamed array_mapIdx_a [])) (SFn (SNamed array_Array [(SNamed array_mapIdx_a [])]) (SNamed array_Array [(SNamed array_mapIdx_a [])])))) (Some [109%N; 97%N; 112%N; 73%N; 100%N; 120%N]) (inr e_array_mapIdx).
(** std/array.tic:113-122 *)
Definition e_array_get : sexpr :=
  SLam array_get_idx [] SInt (SLam array_get_arr [] (SNamed array_Array [(SNamed array_get_a [])]) (SMatch false (SName array_get_arr []) [(array_NonEmptyArray, [array_get_size; array_get_data; array_get__; array_get_get], SIf (SBinary (SName array_get_idx []) GreaterEq (SName array_get_size [])) (SName option_None [(SNamed array_get_a [])])
      (SApply (SName option_Some [(SNamed array_get_a [])]) (SParen (SApply (SApply (SName array_get_get []) (SName array_get_idx [])) (SName array_get_data [])))));
      (array_EmptyArray, [], SName option_None [(SNamed array_get_a [])])])).
Definition it_array_get : item := IVal array_get [array_get_a] (SFn SInt (SFn (SNamed array_Array [(SNamed array_get_a [])]) (SNamed option_Option [(SNamed array_get_a [])]))) (Some [103%N; 101%N; 116%N]) (inr e_array_get).
(** std/array.tic:124-126 *)
Definition e_array_set : sexpr :=
  SLam array_set_idx [] SInt (SLam array_set_value [] (SNamed array_set_a []) (SLam array_set_arr [] (SNamed array_Array [(SNamed array_set_a [])]) (SApply (SApply (SApply (SName array_mapIdx [(SNamed array_set_a [])]) (SName array_set_idx [])) (SParen (SLam array_set__ [] (SNamed array_set_a []) (SName array_set_value [])))) (SName array_set_arr [])))).
Definition it_array_set : item := IVal array_set [array_set_a] (SFn SInt (SFn (SNamed array_set_a []) (SFn (SNamed array_Array [(SNamed array_set_a [])]) (SNamed array_Array [(SNamed array_set_a [])])))) (Some [115%N; 101%N; 116%N]) (inr e_array_set).
(** std/array.tic:128-131 *)
Definition e_array_toList : sexpr :=
  SLam array_toList_arr [] (SNamed array_Array [(SNamed array_toList_a [])]) (SPipe (SApply (SApply (SName list_range []) (SNumber 0)) (SParen (SApply (SName array_length [(SNamed array_toList_a [])]) (SName array_toList_arr [])))) (SApply (SName list_filterMap [SInt; (SNamed array_toList_a [])]) (SParen (SLam array_toList_i [] SInt (SApply (SApply (SName array_get [(SNamed array_toList_a [])]) (SName array_toList_i [])) (SName array_toList_arr [])))))).
Definition it_array_toList : item := IVal array_toList [array_toList_a] (SFn (SNamed array_Array [(SNamed array_toList_a [])]) (SNamed list_List [(SNamed array_toList_a [])])) (Some [116%N; 111%N; 76%N; 105%N; 115%N; 116%N]) (inr e_array_toList).
(** std/array.tic:133-147 *)
Definition e_array_fromList : sexpr :=
  SLet array_fromList_go [] (SFold (SFn (SNamed list_List [(SNamed array_fromList_a [])]) (SFn SInt (SFn (SNamed array_Array [(SNamed array_fromList_a [])]) (SNamed array_Array [(SNamed array_fromList_a [])])))) array_fromList_l
     (SLam array_fromList_idx [] SInt (SLam array_fromList_arr [] (SNamed array_Array [(SNamed array_fromList_a [])]) (SMatch true (SName array_fromList_l []) [(list_Nil, [], SName array_fromList_arr []);
      (list_Cons, [array_fromList_x; array_fromList_xs], SLet array_fromList_arr2 [] (SApply (SApply (SApply (SName array_set [(SNamed array_fromList_a [])]) (SName array_fromList_idx [])) (SName array_fromList_x [])) (SName array_fromList_arr []))
    (SApply (SApply (SName array_fromList_xs []) (SParen (SBinary (SName array_fromList_idx []) Add (SNumber 1)))) (SName array_fromList_arr2 [])))]))))
    (SLam array_fromList_l2 [] (SNamed list_List [(SNamed array_fromList_a [])]) (SMatch false (SName array_fromList_l2 []) [(list_Nil, [], SName array_empty [(SNamed array_fromList_a [])]);
      (list_Cons, [array_fromList_x2; array_fromList__], SLet array_fromList_init [] (SApply (SApply (SName array_new [(SNamed array_fromList_a [])]) (SParen (SApply (SName list_length [(SNamed array_fromList_a [])]) (SName array_fromList_l2 [])))) (SName array_fromList_x2 []))
    (SApply (SApply (SApply (SName array_fromList_go []) (SName array_fromList_l2 [])) (SNumber 0)) (SName array_fromList_init [])))])).
Definition it_array_fromList : item := IVal array_fromList [array_fromList_a] (SFn (SNamed list_List [(SNamed array_fromList_a [])]) (SNamed array_Array [(SNamed array_fromList_a [])])) (Some [102%N; 114%N; 111%N; 109%N; 76%N; 105%N; 115%N; 116%N]) (inr e_array_fromList).
(** std/array.tic:149-158 *)
Definition e_array_truncate : sexpr :=
  SLam array_truncate_newSize [] SInt (SLam array_truncate_arr [] (SNamed array_Array [(SNamed array_truncate_a [])]) (SMatch false (SName array_truncate_arr []) [(array_EmptyArray, [], SName array_truncate_arr []);
      (array_NonEmptyArray, [array_truncate_size; array_truncate_data; array_truncate_map; array_truncate_get], SIf (SBinary (SName array_truncate_size []) LessEq (SName array_truncate_newSize [])) (SName array_truncate_arr [])
      (SApply (SApply (SApply (SApply (SName array_NonEmptyArray [(SNamed array_truncate_a [])]) (SName array_truncate_newSize [])) (SName array_truncate_data [])) (SName array_truncate_map [])) (SName array_truncate_get [])))])).
Definition it_array_truncate : item := IVal array_truncate [array_truncate_a] (SFn SInt (SFn (SNamed array_Array [(SNamed array_truncate_a [])]) (SNamed array_Array [(SNamed array_truncate_a [])]))) (Some [116%N; 114%N; 117%N; 110%N; 99%N; 97%N; 116%N; 101%N]) (inr e_array_truncate).
Definition mod_array : list item := [IImport [(key_int, mod_int)]; IImport [(key_option, mod_option)]; IImport [(key_list, mod_list)]; ty_array_ArrayData; it_array_mapLeaf; it_array_mapNode; it_array_getLeaf; it_array_getNode; ty_array_Array; it_array_length; it_array_empty; it_array_new; it_array_mapIdx; it_array_get; it_array_set; it_array_toList; it_array_fromList; it_array_truncate].

(** A program that imports the whole library (builtin.rs:36-54). *)
Definition std_imports : list item := [IImport [(key_intrinsics, mod_intrinsics)]; IImport [(key_option, mod_option)]; IImport [(key_result, mod_result)]; IImport [(key_list, mod_list)]; IImport [(key_string, mod_string)]; IImport [(key_int, mod_int)]; IImport [(key_array, mod_array)]].
