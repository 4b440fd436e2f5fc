(** std/option.tic and std/result.tic meet their specifications. *)
From Verif Require Import StdTac.
Set Implicit Arguments.

Section Opt.
  Variable o : order.
  Variable tys : stypes.
  Notation evals := (evals o tys).
  Notation call := (call o tys).
  Notation calls := (calls o tys).
  Variable en : senv.
  Hypothesis Hnone : lookup option_None en = Some (WCon false option_None []).
  Hypothesis Hsome : lookup option_Some en = Some (WCtor option_Some 1 []).
  Hypothesis Hok : lookup result_Ok en = Some (WCtor result_Ok 1 []).
  Hypothesis Herr : lookup result_Err en = Some (WCtor result_Err 1 []).
  Ltac go := hnf; repeat match goal with |- _ /\ _ => split end; intros; repeat match goal with x : option _ |- _ => destruct x | x : (_ + _)%type |- _ => destruct x end;
    cbn [of_option of_result]; first [apply calls1; ap | eapply calls2; ap].
  Lemma option_map_ok : exists v, evals en e_option_map v /\ option_map_spec o tys v. Proof. start. go. Qed.
  Lemma option_andThen_ok : exists v, evals en e_option_andThen v /\ option_andThen_spec o tys v. Proof. start. go. Qed.
  Lemma option_flatten_ok : exists v, evals en e_option_flatten v /\ option_flatten_spec o tys v. Proof. start. go. Qed.
  Lemma option_unwrapOr_ok : exists v, evals en e_option_unwrapOr v /\ option_unwrapOr_spec o tys v. Proof. start. go. Qed.
  Lemma option_isSome_ok : exists v, evals en e_option_isSome v /\ option_isSome_spec o tys v. Proof. start. go. Qed.
  Lemma option_isNone_ok : exists v, evals en e_option_isNone v /\ option_isNone_spec o tys v. Proof. start. go. Qed.
  Lemma option_apply_ok vm : lookup option_map en = Some vm -> option_map_spec o tys vm -> exists v, evals en e_option_apply v /\ option_apply_spec o tys v.
  Proof.
    intros Hm [M1 M2]. start. split; [|split].
    - intros f x y H. specialize (M1 f x y H). ex. eapply calls2; cbn [of_option] in *; ap.
    - intros f. specialize (M2 f). ex. eapply calls2; cbn [of_option] in *; ap.
    - intros x. eapply calls2; cbn [of_option] in *; ap.
  Qed.
  Lemma result_map_ok : exists v, evals en e_result_map v /\ result_map_spec o tys v. Proof. start. go. Qed.
  Lemma result_mapErr_ok : exists v, evals en e_result_mapErr v /\ result_mapErr_spec o tys v. Proof. start. go. Qed.
  Lemma result_andThen_ok : exists v, evals en e_result_andThen v /\ result_andThen_spec o tys v. Proof. start. go. Qed.
  Lemma result_flatten_ok : exists v, evals en e_result_flatten v /\ result_flatten_spec o tys v. Proof. start. go. Qed.
  Lemma result_unwrapOr_ok : exists v, evals en e_result_unwrapOr v /\ result_unwrapOr_spec o tys v. Proof. start. go. Qed.
  Lemma result_ok_ok : exists v, evals en e_result_ok v /\ result_ok_spec o tys v. Proof. start. go. Qed.
  Lemma result_err_ok : exists v, evals en e_result_err v /\ result_err_spec o tys v. Proof. start. go. Qed.
  Lemma result_okOr_ok : exists v, evals en e_result_okOr v /\ result_okOr_spec o tys v. Proof. start. go. Qed.
  Lemma result_join_ok : exists v, evals en e_result_join v /\ result_join_spec o tys v. Proof. start. go. Qed.
  Lemma result_apply_ok vm : lookup result_map en = Some vm -> result_map_spec o tys vm -> exists v, evals en e_result_apply v /\ result_apply_spec o tys v.
  Proof.
    intros Hm [M1 M2]. start. split; [|split].
    - intros f x y H. specialize (M1 f x y H). ex. eapply calls2; cbn [of_result] in *; ap.
    - intros f e. specialize (M2 f e). ex. eapply calls2; cbn [of_result] in *; ap.
    - intros x e. eapply calls2; cbn [of_result] in *; ap.
  Qed.
End Opt.
