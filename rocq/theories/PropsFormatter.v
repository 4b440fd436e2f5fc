(** Property C31: the formatter. *)
From Verif Require Import FormatterSpec FormatterProofs.

(** C31.  For every sequence of builder calls formatting succeeds (the assertion
    [!needs_space || !needs_indent] and the [unwrap]s never fire) and the output is laid out as specified
    in FormatterSpec.v. *)
Theorem C31_format_total_and_laid_out :
  forall cs : list call, exists out, format_calls cs = Some out /\ laid None false cs out.
Proof. exact format_laid. Qed.
Print Assumptions C31_format_total_and_laid_out.

(** C31.  The output is exactly the added tokens, in order, with only nothing, one space, or a newline
    and indentation (a multiple of four) before each, and at most one newline at the end. *)
Theorem C31_tokens_kept_in_order :
  forall cs out, format_calls cs = Some out ->
    exists gaps fin,
      length gaps = length (call_tokens cs) /\
      out = concat (map (fun '(g, t) => g ++ t) (combine gaps (call_tokens cs))) ++ fin /\
      Forall gap gaps /\ (fin = [] \/ fin = [nl]) /\
      match gaps with g :: _ => g = [] | [] => fin = [] end.
Proof. exact format_gaps. Qed.
Print Assumptions C31_tokens_kept_in_order.

(** C31.  No line of the output ends with a space, provided no token introduces one itself. *)
Theorem C31_no_trailing_spaces :
  forall cs out, format_calls cs = Some out ->
    Forall (fun t => t <> [] /\ hd sp t <> nl /\ no_trailing t = true) (call_tokens cs) ->
    (forall a b, out <> a ++ sp :: nl :: b) /\ (forall a, out <> a ++ [sp]).
Proof. exact format_no_trailing. Qed.
Print Assumptions C31_no_trailing_spaces.

(** "let x =" newline, indented "f" "(" "y" ")" ";" *)
Definition ex_calls : list call :=
  [AddNewline; AddToken [108; 101; 116]%N; StartNode true true; AddToken [120]%N; AddToken [61]%N;
   AddLargeNewline; AddNewline; StartNode false true; AddToken [102]%N; AddSticky [40]%N Both;
   AddToken [121]%N; AddSticky [41]%N Prev; FinishNode; FinishNode; AddSticky [59]%N Prev; AddWhitespace [32; 10]%N].
Example C31_hypotheses_met :
  format_calls ex_calls =
    Some [108; 101; 116; 32; 120; 32; 61; 10; 32; 32; 32; 32; 102; 40; 121; 41; 59; 10]%N /\
  Forall (fun t => t <> [] /\ hd sp t <> nl /\ no_trailing t = true) (call_tokens ex_calls).
Proof. split; [vm_compute; reflexivity|]. repeat constructor; discriminate. Qed.
