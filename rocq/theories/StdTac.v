(** Running library code symbolically: tactics over the rules of SrcBig.v. *)
From Verif Require Export StdSpec.
Set Implicit Arguments.

Lemma lookup_hit {A} x (v : A) en : lookup x ((x, v) :: en) = Some v.
Proof. simpl. rewrite Nat.eqb_refl. auto. Qed.
Lemma lookup_miss {A} x y (v w : A) en : Nat.eqb x y = false -> lookup x en = Some w -> lookup x ((y, v) :: en) = Some w.
Proof. simpl. intros E H. rewrite Nat.eqb_sym, E || rewrite E. auto. Qed.

Section Rules.
  Variable o : order.
  Variable tys : stypes.
  Notation evals := (evals o tys).
  Notation call := (call o tys).
  Notation calls := (calls o tys).
  Lemma ev_add en a b x y : evals en a (WInt x) -> evals en b (WInt y) -> evals en (SBinary a Add b) (WInt (wrap (x + y))).
  Proof. intros. eapply ev_binary; eauto. Qed.
  Lemma ev_sub en a b x y : evals en a (WInt x) -> evals en b (WInt y) -> evals en (SBinary a Subtract b) (WInt (wrap (x + (W64 - y)))).
  Proof. intros. eapply ev_binary; eauto. Qed.
  Lemma ev_mul en a b x y : evals en a (WInt x) -> evals en b (WInt y) -> evals en (SBinary a Multiply b) (WInt (wrap (x * y))).
  Proof. intros. eapply ev_binary; eauto. Qed.
  Lemma ev_div en a b x y : evals en a (WInt x) -> evals en b (WInt y) -> evals en (SBinary a Divide b) (WInt (if N.eqb y 0 then 0 else x / y)%N).
  Proof. intros. eapply ev_binary; eauto. Qed.
  Lemma ev_mod en a b x y : evals en a (WInt x) -> evals en b (WInt y) -> evals en (SBinary a Modulo b) (WInt (if N.eqb y 0 then x else x mod y)%N).
  Proof. intros. eapply ev_binary; eauto. Qed.
  Lemma ev_less en a b x y : evals en a (WInt x) -> evals en b (WInt y) -> evals en (SBinary a Less b) (WBool (N.ltb x y)).
  Proof. intros. eapply ev_binary; eauto. Qed.
  Lemma ev_lesseq en a b x y : evals en a (WInt x) -> evals en b (WInt y) -> evals en (SBinary a LessEq b) (WBool (N.leb x y)).
  Proof. intros. eapply ev_binary; eauto. Qed.
  Lemma ev_greater en a b x y : evals en a (WInt x) -> evals en b (WInt y) -> evals en (SBinary a Greater b) (WBool (N.ltb y x)).
  Proof. intros. eapply ev_binary; eauto. Qed.
  Lemma ev_greatereq en a b x y : evals en a (WInt x) -> evals en b (WInt y) -> evals en (SBinary a GreaterEq b) (WBool (N.leb y x)).
  Proof. intros. eapply ev_binary; eauto. Qed.
  Lemma ev_equal en a b x y : evals en a (WInt x) -> evals en b (WInt y) -> evals en (SBinary a Equal b) (WBool (N.eqb x y)).
  Proof. intros. eapply ev_binary; eauto. Qed.
  Lemma ev_notequal en a b x y : evals en a (WInt x) -> evals en b (WInt y) -> evals en (SBinary a NotEqual b) (WBool (negb (N.eqb x y))).
  Proof. intros. eapply ev_binary; eauto. Qed.
  Lemma ct1 c a : call (WCtor c 1 []) a (WCon false c [a]).
  Proof. apply (@app_ctor_done o tys c 1 [] a); cbn; unfold max_fields; lia. Qed.
  Lemma ct2a c a : call (WCtor c 2 []) a (WCtor c 2 [a]).
  Proof. apply (@app_ctor_more o tys c 2 [] a); cbn; lia. Qed.
  Lemma ct2b c a b : call (WCtor c 2 [a]) b (WCon false c [a; b]).
  Proof. apply (@app_ctor_done o tys c 2 [a] b); cbn; unfold max_fields; lia. Qed.
  Lemma ct3a c a : call (WCtor c 3 []) a (WCtor c 3 [a]).
  Proof. apply (@app_ctor_more o tys c 3 [] a); cbn; lia. Qed.
  Lemma ct3b c a b : call (WCtor c 3 [a]) b (WCtor c 3 [a; b]).
  Proof. apply (@app_ctor_more o tys c 3 [a] b); cbn; lia. Qed.
  Lemma ct3c c a b d : call (WCtor c 3 [a; b]) d (WCon false c [a; b; d]).
  Proof. apply (@app_ctor_done o tys c 3 [a; b] d); cbn; unfold max_fields; lia. Qed.
  Lemma ct4a c a : call (WCtor c 4 []) a (WCtor c 4 [a]).
  Proof. apply (@app_ctor_more o tys c 4 [] a); cbn; lia. Qed.
  Lemma ct4b c a b : call (WCtor c 4 [a]) b (WCtor c 4 [a; b]).
  Proof. apply (@app_ctor_more o tys c 4 [a] b); cbn; lia. Qed.
  Lemma ct4c c a b d : call (WCtor c 4 [a; b]) d (WCtor c 4 [a; b; d]).
  Proof. apply (@app_ctor_more o tys c 4 [a; b] d); cbn; lia. Qed.
  Lemma ct4d c a b d e : call (WCtor c 4 [a; b; d]) e (WCon false c [a; b; d; e]).
  Proof. apply (@app_ctor_done o tys c 4 [a; b; d] e); cbn; unfold max_fields; lia. Qed.
  Lemma op_len s : call (WOp StringLen []) (WStr s) (WInt (str_len s)).
  Proof. eapply app_op_done; reflexivity. Qed.
  Lemma op_fromchar c : call (WOp StringFromChar []) (WInt c) (WStr (str_from_char c)).
  Proof. eapply app_op_done; reflexivity. Qed.
  Lemma op_tostring c : call (WOp IntToString []) (WInt c) (WStr (int_to_string c)).
  Proof. eapply app_op_done; reflexivity. Qed.
  Lemma op_concat1 a : call (WOp StringConcat []) a (WOp StringConcat [a]).
  Proof. apply (@app_op_more o tys StringConcat [] a); cbn; lia. Qed.
  Lemma op_concat2 a b : call (WOp StringConcat [WStr a]) (WStr b) (WStr (a ++ b)).
  Proof. eapply app_op_done; reflexivity. Qed.
  Lemma op_charat1 a : call (WOp StringCharAt []) a (WOp StringCharAt [a]).
  Proof. apply (@app_op_more o tys StringCharAt [] a); cbn; lia. Qed.
  Lemma op_charat2 a b : call (WOp StringCharAt [WInt a]) (WStr b) (WInt (str_char_at a b)).
  Proof. eapply app_op_done; reflexivity. Qed.
  Lemma op_sub1 a : call (WOp StringSubstring []) a (WOp StringSubstring [a]).
  Proof. apply (@app_op_more o tys StringSubstring [] a); cbn; lia. Qed.
  Lemma op_sub2 a b : call (WOp StringSubstring [a]) b (WOp StringSubstring [a; b]).
  Proof. apply (@app_op_more o tys StringSubstring [a] b); cbn; lia. Qed.
  Lemma op_sub3 a b s : call (WOp StringSubstring [WInt a; WInt b]) (WStr s) (WStr (str_substring a b s)).
  Proof. eapply app_op_done; reflexivity. Qed.
  Lemma calls1 f a r : call f a r -> calls f [a] r.
  Proof. intros. exists r. split; auto. reflexivity. Qed.
  Lemma calls2 f a b g r : call f a g -> call g b r -> calls f [a; b] r.
  Proof. intros. exists g. split; auto. apply calls1; auto. Qed.
  Lemma calls3 f a b c g h r : call f a g -> call g b h -> call h c r -> calls f [a; b; c] r.
  Proof. intros. exists g. split; auto. eapply calls2; eauto. Qed.
  Lemma calls1' f a r : calls f [a] r -> call f a r.
  Proof. intros (g & H & E). cbn in E. subst. auto. Qed.
End Rules.

Ltac lk :=
  match goal with
  | |- lookup ?x ((?x, _) :: _) = _ => apply lookup_hit
  | |- lookup _ ((_, _) :: _) = _ => apply lookup_miss; [reflexivity | lk]
  | |- _ => first [eassumption | reflexivity]
  end.
(** [calls] facts in the context, one call at a time. *)
Ltac ex := repeat match goal with
  | H : calls _ _ ?g [] ?r |- _ => change (r = g) in H; subst g
  | H : calls _ _ _ (_ :: _) _ |- _ => let g := fresh "g" in let H1 := fresh "C" in let H2 := fresh "C" in destruct H as (g & H1 & H2)
  | H1 : call _ _ ?f ?a ?g, H2 : call _ _ ?f ?a ?h |- _ =>
    is_var h; assert (h = g) by (exact (app_det H2 H1)); subst h; clear H2
  end.
Ltac fields := repeat first [apply rp_nil | apply rp_keep | eapply rp_rec; [eassumption|]].
Ltac ev :=
  lazymatch goal with
  | |- evals _ _ _ (SName _ _) _ => eapply ev_name; lk
  | |- evals _ _ _ (SApply _ _) _ => eapply ev_apply; [ev | ev | ap]
  | |- evals _ _ _ (SPipe _ _) _ => eapply ev_pipe; [ev | ev | ap]
  | |- evals _ _ _ (SLet _ _ _ _) _ => eapply ev_let; [ev | ev]
  | |- evals _ _ _ (SMatch _ _ _) _ => eapply ev_match; [ev | reflexivity | reflexivity | cbn [bind_all]; ev]
  | |- evals _ _ _ (SIf _ _ _) _ => eapply ev_if; [ev | branch]
  | |- evals _ _ _ (SBoolean _) _ => apply ev_bool
  | |- evals _ _ _ (SNumber _) _ => apply ev_num
  | |- evals _ _ _ (SStr _) _ => apply ev_str
  | |- evals _ _ _ (SLam _ _ _ _) _ => apply ev_lam
  | |- evals _ _ _ (SFold _ _ _) _ => eapply ev_fold; eassumption
  | |- evals _ _ _ (SParen _) _ => apply ev_paren; ev
  | |- evals _ _ _ (SBinary _ Add _) _ => eapply ev_add; [ev | ev]
  | |- evals _ _ _ (SBinary _ Subtract _) _ => eapply ev_sub; [ev | ev]
  | |- evals _ _ _ (SBinary _ Multiply _) _ => eapply ev_mul; [ev | ev]
  | |- evals _ _ _ (SBinary _ Divide _) _ => eapply ev_div; [ev | ev]
  | |- evals _ _ _ (SBinary _ Modulo _) _ => eapply ev_mod; [ev | ev]
  | |- evals _ _ _ (SBinary _ Less _) _ => eapply ev_less; [ev | ev]
  | |- evals _ _ _ (SBinary _ LessEq _) _ => eapply ev_lesseq; [ev | ev]
  | |- evals _ _ _ (SBinary _ Greater _) _ => eapply ev_greater; [ev | ev]
  | |- evals _ _ _ (SBinary _ GreaterEq _) _ => eapply ev_greatereq; [ev | ev]
  | |- evals _ _ _ (SBinary _ Equal _) _ => eapply ev_equal; [ev | ev]
  | |- evals _ _ _ (SBinary _ NotEqual _) _ => eapply ev_notequal; [ev | ev]
  | |- _ => idtac
  end
with branch :=
  lazymatch goal with
  | |- if true then _ else _ => cbv iota; ev
  | |- if false then _ else _ => cbv iota; ev
  | |- _ => idtac
  end
with ap :=
  lazymatch goal with
  | |- call _ _ (WFun _ _ _) _ _ => first [eassumption | apply app_fun; ev]
  | |- call _ _ (WCtor _ 1 _) _ _ => apply ct1
  | |- call _ _ (WCtor _ 2 _) _ _ => first [apply ct2a | apply ct2b]
  | |- call _ _ (WCtor _ 3 _) _ _ => first [apply ct3a | apply ct3b | apply ct3c]
  | |- call _ _ (WCtor _ 4 _) _ _ => first [apply ct4a | apply ct4b | apply ct4c | apply ct4d]
  | |- call _ _ (WOp StringLen _) _ _ => apply op_len
  | |- call _ _ (WOp StringFromChar _) _ _ => apply op_fromchar
  | |- call _ _ (WOp IntToString _) _ _ => apply op_tostring
  | |- call _ _ (WOp StringConcat []) _ _ => apply op_concat1
  | |- call _ _ (WOp StringConcat _) _ _ => apply op_concat2
  | |- call _ _ (WOp StringCharAt []) _ _ => apply op_charat1
  | |- call _ _ (WOp StringCharAt _) _ _ => apply op_charat2
  | |- call _ _ (WOp StringSubstring []) _ _ => apply op_sub1
  | |- call _ _ (WOp StringSubstring [_]) _ _ => apply op_sub2
  | |- call _ _ (WOp StringSubstring _) _ _ => apply op_sub3
  | |- call _ _ (WIter []) _ _ => apply app_iter_0
  | |- call _ _ (WIter [_]) _ _ => apply app_iter_1
  | |- _ => try eassumption
  end.
(** An application of a fold to a constructor. *)
Ltac fo := eapply app_fold; [reflexivity | fields | cbn; unfold max_fields; lia | ev].
(** A binding of a module: its value. *)
Ltac start := eexists; split; [match goal with |- evals _ _ _ ?e _ => unfold e end; ev|].
