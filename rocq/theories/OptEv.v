(** A big-step presentation of successful runs of the tree-walking runner, with the number of calls made,
    and its equivalence with [eval_o].  Used to reason about the optimiser. *)
From Verif Require Import EvalFacts Orders Compile.
Set Implicit Arguments.

Definition intr_val (i : intrinsic) (vs : list value) : option value :=
  match i, vs with
  | StringLen, [VStr s] => Some (VInt (str_len s))
  | StringConcat, [VStr a; VStr b] => Some (VStr (a ++ b))
  | StringCharAt, [VInt n; VStr s] => Some (VInt (str_char_at n s))
  | StringSubstring, [VInt a; VInt b; VStr s] => Some (VStr (str_substring a b s))
  | StringFromChar, [VInt n] => Some (VStr (str_from_char n))
  | IntToString, [VInt n] => Some (VStr (int_to_string n))
  | _, _ => None
  end.

Inductive ev : nat -> env -> expr -> value -> Prop :=
| ev_bool en b : ev 0 en (EBool b) (VBool b)
| ev_int en i : ev 0 en (EInt i) (VInt i)
| ev_str en s : ev 0 en (EString s) (VStr s)
| ev_name en x v : lookup x en = Some v -> ev 0 en (EName x) v
| ev_call i j m en f args cenv rec ps body vs v :
    ev i en f (VFn cenv rec ps body) -> evs j en args vs -> length ps = length vs ->
    ev m (call_env cenv rec ps body vs) body v -> ev (i + j + S m) en (ECall f args) v
| ev_if i j en c t e b v :
    ev i en c (VBool b) -> ev j en (if b then t else e) v -> ev (i + j) en (EIf c t e) v
| ev_op i j en a o b x y :
    ev i en a (VInt x) -> ev j en b (VInt y) -> ev (i + j) en (EOp a o b) (eval_op o x y)
| ev_intr j en i xs rest vs v :
    length xs = intr_arity i -> evs j en xs vs -> intr_val i vs = Some v ->
    ev j en (EIntr i (xs ++ rest)) v
| ev_lam en ps b : ev 0 en (ELam ps b) (VFn en None (map fst ps) b)
| ev_match i j en d brs c fs bs b v :
    ev i en d (VComp c fs) -> find_branch c brs = Some (bs, b) -> length bs = length fs ->
    ev j (add_all en bs fs) b v -> ev (i + j) en (EMatch d brs) v
| ev_construct j en c tys es vs :
    evs j en es vs -> length vs <= max_fields -> ev j en (EConstruct c tys es) (VComp c vs)
| ev_let i j en x a b va v :
    ev i en a va -> ev j ((x, va) :: en) b v -> ev (i + j) en (ELet x a b) v
| ev_letrec j en x t a b ps body v :
    strip_pis a = ELam ps body -> ev j ((x, VFn en (Some x) (map fst ps) body) :: en) b v ->
    ev j en (ELetRec x t a b) v
| ev_pi j en t e v : ev j en e v -> ev j en (EPi t e) v
| ev_piapp j en e t v : ev j en e v -> ev j en (EPiApp e t) v
with evs : nat -> env -> list expr -> list value -> Prop :=
| evs_nil en : evs 0 en [] []
| evs_cons i j en e es v vs : ev i en e v -> evs j en es vs -> evs (i + j) en (e :: es) (v :: vs).

Scheme ev_ind2 := Minimality for ev Sort Prop with evs_ind2 := Minimality for evs Sort Prop.
Combined Scheme ev_mutind from ev_ind2, evs_ind2.

Lemma evs_length i en es vs : evs i en es vs -> length vs = length es.
Proof. induction 1; simpl; congruence. Qed.

(** ** The relation describes [eval_o]. *)
Lemma evs_mapM n en es : Forall (fun e => forall v, eval_o FnFirst n en e = Ok v -> exists c, ev c en e v) es ->
  forall vs, mapM (eval_o FnFirst n en) es = Ok vs -> exists c, evs c en es vs.
Proof.
  induction 1 as [|e es He _ IH]; intros vs Hm.
  - injection Hm as <-. exists 0; constructor.
  - rewrite mapM_cons in Hm. apply bind_ok in Hm as (v & E & Hm). apply bind_ok in Hm as (ws & E2 & Hm).
    injection Hm as <-. apply He in E as [c1 H1]. apply IH in E2 as [c2 H2]. exists (c1 + c2). constructor; auto.
Qed.

Lemma intr_split (i : intrinsic) (xs : list expr) : intr_arity i <= length xs ->
  exists a r, xs = a ++ r /\ length a = intr_arity i.
Proof.
  intros H. exists (firstn (intr_arity i) xs), (skipn (intr_arity i) xs).
  rewrite firstn_skipn, firstn_length. split; auto. lia.
Qed.

Lemma into_int_ok v i : into_int v = Ok i -> v = VInt i.
Proof. destruct v; simpl; congruence. Qed.
Lemma into_bool_ok v i : into_bool v = Ok i -> v = VBool i.
Proof. destruct v; simpl; congruence. Qed.
Lemma into_string_ok v i : into_string v = Ok i -> v = VStr i.
Proof. destruct v; simpl; congruence. Qed.

Lemma find_branch_in c brs bs b : find_branch c brs = Some (bs, b) -> In ((c, bs), b) brs.
Proof.
  induction brs as [|[[c' bs'] b'] brs IH]; simpl; [discriminate|].
  destruct (Nat.eqb_spec c' c) as [->|]; intros E; [injection E as -> ->; auto|]. auto.
Qed.

Theorem eval_ev n : forall e en v, eval_o FnFirst n en e = Ok v -> exists c, ev c en e v.
Proof.
  induction n as [n IHn] using lt_wf_ind. intros e. induction e using expr_ind'; intros en w Hev;
    rewrite eval_unfold in Hev; cbn [eval_eqn] in Hev; try discriminate.
  - injection Hev as <-; eexists; constructor.
  - injection Hev as <-; eexists; constructor.
  - injection Hev as <-; eexists; constructor.
  - destruct (lookup n0 en) eqn:E; [|discriminate]. injection Hev as <-. eexists; constructor; auto.
  - apply bind_ok in Hev as (fv & E & Hev). destruct fv; try discriminate.
    apply bind_ok in Hev as (vs & E2 & Hev). unfold call_o in Hev.
    destruct (length ps =? length vs) eqn:El; [|discriminate]. apply Nat.eqb_eq in El.
    destruct n as [|n]; [discriminate|]. apply IHn in Hev as [m Hm]; [|lia].
    apply IHe in E as [i Hi]. apply evs_mapM in E2 as [j Hj]; [|eapply Forall_impl; [|exact H]; auto].
    eexists; econstructor; eauto.
  - apply bind_ok in Hev as (cv & E & Hev). apply bind_ok in Hev as (b & Eb & Hev).
    apply into_bool_ok in Eb; subst. apply IHe1 in E as [i Hi].
    assert (Hx : exists c, ev c en (if b then e2 else e3) w) by (destruct b; auto). destruct Hx as [j Hj].
    eexists; econstructor; eauto.
  - apply bind_ok in Hev as (va & E & Hev). apply bind_ok in Hev as (x & Ex & Hev).
    apply bind_ok in Hev as (vb & E2 & Hev). apply bind_ok in Hev as (y & Ey & Hev).
    apply into_int_ok in Ex; apply into_int_ok in Ey; subst. injection Hev as <-.
    apply IHe1 in E as [c1 H1]. apply IHe2 in E2 as [c2 H2]. eexists; econstructor; eauto.
  - assert (HX : exists c xs rest vs, args = xs ++ rest /\ length xs = intr_arity i /\ evs c en xs vs /\ intr_val i vs = Some w).
    { destruct i; (destruct args as [|x0 [|x1 [|x2 xs]]]; try discriminate);
      repeat match goal with HF : Forall _ (_ :: _) |- _ => inversion HF; clear HF; subst end;
      repeat (match goal with
        | Hb : bind (eval_o _ _ _ ?x) _ = Ok _ |- _ =>
          let v := fresh "v" in let E := fresh "E" in let c := fresh "c" in
          apply bind_ok in Hb as (v & E & Hb);
          match goal with IH : forall en v, eval_o _ _ _ x = Ok v -> _ |- _ => apply IH in E as [c E] end
        | Hb : bind ?r _ = Ok _ |- _ =>
          let v := fresh "v" in let E := fresh "E" in
          apply bind_ok in Hb as (v & E & Hb);
          first [apply into_int_ok in E | apply into_string_ok in E]; subst
        end); try discriminate; injection Hev as <-.
      all: try (eexists _, [x0], _, [_]; simpl; repeat split; [econstructor; [eassumption|constructor]|reflexivity]).
      all: try (eexists _, [x0; x1], _, [_; _]; simpl; repeat split; [repeat (econstructor; [eassumption|]); constructor|reflexivity]).
      all: try (eexists _, [x0; x1; x2], _, [_; _; _]; simpl; repeat split; [repeat (econstructor; [eassumption|]); constructor|reflexivity]). }
    destruct HX as (c & xs & rest & vs & -> & Hl & Hx & Hv). eexists; econstructor; eauto.
  - injection Hev as <-. eexists; constructor.
  - apply bind_ok in Hev as (dv & E & Hev). apply IHe in E as [i Hi]. destruct dv; try discriminate.
    destruct (find_branch c brs) as [[bs b]|] eqn:Eb; [|discriminate].
    destruct (length bs =? length fs) eqn:El; [|discriminate]. apply Nat.eqb_eq in El.
    rewrite Forall_forall in H. pose proof (H _ (find_branch_in _ _ Eb) _ _ Hev) as [j Hj].
    eexists; econstructor; eauto.
  - apply bind_ok in Hev as (vs & E & Hev). unfold mk_tagged in Hev.
    destruct (length vs <=? max_fields) eqn:El; [|discriminate]. apply Nat.leb_le in El. injection Hev as <-.
    apply evs_mapM in E as [j Hj]; [|eapply Forall_impl; [|exact H]; auto]. eexists; econstructor; eauto.
  - apply bind_ok in Hev as (vv & E & Hev). apply IHe1 in E as [i Hi]. apply IHe2 in Hev as [j Hj].
    eexists; econstructor; eauto.
  - destruct (strip_pis e1) eqn:E; try discriminate. apply IHe2 in Hev as [j Hj]. eexists; econstructor; eauto.
  - apply IHe in Hev as [j Hj]. eexists; econstructor; eauto.
  - apply IHe in Hev as [j Hj]. eexists; econstructor; eauto.
Qed.

Lemma eval_up n m e en v : n <= m -> eval_o FnFirst n en e = Ok v -> eval_o FnFirst m en e = Ok v.
Proof. intros H E. destruct (eval_mono FnFirst e en H) as [E'|E']; congruence. Qed.
Lemma mapM_up n m es en vs : n <= m -> mapM (eval_o FnFirst n en) es = Ok vs -> mapM (eval_o FnFirst m en) es = Ok vs.
Proof.
  intros H. apply mapM_ok. apply Forall_forall. intros e _ v. apply eval_up; auto.
Qed.

Theorem ev_eval :
  (forall c en e v, ev c en e v -> exists n, eval_o FnFirst n en e = Ok v) /\
  (forall c en es vs, evs c en es vs -> exists n, mapM (eval_o FnFirst n en) es = Ok vs).
Proof.
  apply ev_mutind.
  - intros; exists 0; rewrite eval_unfold; reflexivity.
  - intros; exists 0; rewrite eval_unfold; reflexivity.
  - intros; exists 0; rewrite eval_unfold; reflexivity.
  - intros en x v e; exists 0; rewrite eval_unfold; cbn [eval_eqn]. rewrite e; auto.
  - intros i j m en f args cenv rec ps body vs v _ [n1 E1] _ [n2 E2] e _ [n3 E3]. exists (S (n1 + n2 + n3)).
    rewrite eval_unfold; cbn [eval_eqn]. rewrite (@eval_up n1 (S (n1 + n2 + n3)) _ _ _ ltac:(lia) E1). cbn [bind].
    rewrite (@mapM_up n2 (S (n1 + n2 + n3)) _ _ _ ltac:(lia) E2). cbn [bind]. unfold call_o. rewrite e, Nat.eqb_refl.
    apply (@eval_up n3); auto; lia.
  - intros i j en c t e b v _ [n1 H1] _ [n2 H2]. exists (n1 + n2). rewrite eval_unfold; cbn [eval_eqn].
    rewrite (@eval_up n1 (n1 + n2) _ _ _ ltac:(lia) H1). cbn [bind into_bool].
    destruct b; apply (@eval_up n2); auto; lia.
  - intros i j en a o b x y _ [n1 H1] _ [n2 H2]. exists (n1 + n2). rewrite eval_unfold; cbn [eval_eqn].
    rewrite (@eval_up n1 (n1 + n2) _ _ _ ltac:(lia) H1). cbn [bind into_int].
    rewrite (@eval_up n2 (n1 + n2) _ _ _ ltac:(lia) H2). reflexivity.
  - intros j en i xs rest vs v e _ [n H] e0. exists n. rewrite eval_unfold.
    destruct i; (destruct xs as [|x0 [|x1 [|x2 [|x3 xs]]]]; try discriminate); simpl in e; cbn [app eval_eqn].
    all: rewrite ?mapM_cons in H.
    all: repeat match goal with
         | Hb : bind _ _ = Ok _ |- _ => let E := fresh "E" in apply bind_ok in Hb as (? & E & Hb)
         | Hb : mapM _ [] = Ok _ |- _ => simpl in Hb
         | Hb : Ok _ = Ok _ |- _ => injection Hb as <-
         end.
    all: simpl in e0; repeat match type of e0 with context [match ?x with _ => _ end] => destruct x; try discriminate e0 end.
    all: injection e0 as <-.
    all: repeat match goal with
         | Hb : eval_o _ _ _ ?x = Ok _ |- context [eval_o _ _ _ ?x] => rewrite Hb; cbn [bind into_int into_string]
         end.
    all: reflexivity.
  - intros; exists 0; rewrite eval_unfold; reflexivity.
  - intros i j en d brs c fs bs b v _ [n1 H1] e e0 _ [n2 H2]. exists (n1 + n2). rewrite eval_unfold; cbn [eval_eqn].
    rewrite (@eval_up n1 (n1 + n2) _ _ _ ltac:(lia) H1). cbn [bind]. rewrite e, e0, Nat.eqb_refl.
    apply (@eval_up n2); auto; lia.
  - intros j en c tys es vs _ [n H] l. exists n. rewrite eval_unfold; cbn [eval_eqn]. rewrite H. cbn [bind]. unfold mk_tagged.
    apply Nat.leb_le in l. rewrite l. auto.
  - intros i j en x a b va v _ [n1 H1] _ [n2 H2]. exists (n1 + n2). rewrite eval_unfold; cbn [eval_eqn].
    rewrite (@eval_up n1 (n1 + n2) _ _ _ ltac:(lia) H1). cbn [bind]. apply (@eval_up n2); auto; lia.
  - intros j en x t a b ps body v e _ [n H]. exists n. rewrite eval_unfold; cbn [eval_eqn]. rewrite e. auto.
  - intros j en t e v _ [n H]. exists n. rewrite eval_unfold; auto.
  - intros j en e t v _ [n H]. exists n. rewrite eval_unfold; auto.
  - exists 0; auto.
  - intros i j en e es v vs _ [n1 H1] _ [n2 H2]. exists (n1 + n2). rewrite mapM_cons.
    rewrite (@eval_up n1 (n1 + n2) _ _ _ ltac:(lia) H1). cbn [bind].
    rewrite (@mapM_up n2 (n1 + n2) _ _ _ ltac:(lia) H2). auto.
Qed.

(** ** Determinism *)
Lemma ev_det c c' en e v v' : ev c en e v -> ev c' en e v' -> v = v'.
Proof.
  intros H H'. apply (proj1 ev_eval) in H as [n H]. apply (proj1 ev_eval) in H' as [m H'].
  apply (@eval_up n (n + m)) in H; [|lia]. apply (@eval_up m (n + m)) in H'; [|lia]. congruence.
Qed.

(** ** Inversion *)
Lemma ev_name_inv n en x v : ev n en (EName x) v -> n = 0 /\ lookup x en = Some v.
Proof. inversion 1; auto. Qed.
Lemma ev_call_inv n en f args v : ev n en (ECall f args) v -> exists i j m cenv rec ps body vs,
  n = i + j + S m /\ ev i en f (VFn cenv rec ps body) /\ evs j en args vs /\ length ps = length vs /\
  ev m (call_env cenv rec ps body vs) body v.
Proof. inversion 1; subst. do 8 eexists. repeat (split; [eauto|]). auto. Qed.
Lemma ev_if_inv n en c t e v : ev n en (EIf c t e) v -> exists i j b,
  n = i + j /\ ev i en c (VBool b) /\ ev j en (if b then t else e) v.
Proof. inversion 1; subst. do 3 eexists. repeat (split; [eauto|]). auto. Qed.
Lemma ev_op_inv n en a o b v : ev n en (EOp a o b) v -> exists i j x y,
  n = i + j /\ v = eval_op o x y /\ ev i en a (VInt x) /\ ev j en b (VInt y).
Proof. inversion 1; subst. do 4 eexists. repeat (split; [eauto|]). auto. Qed.
Lemma ev_intr_inv n en i args v : ev n en (EIntr i args) v -> exists xs rest vs,
  args = xs ++ rest /\ length xs = intr_arity i /\ evs n en xs vs /\ intr_val i vs = Some v.
Proof. inversion 1; subst. do 3 eexists. repeat (split; [eauto|]). auto. Qed.
Lemma ev_lam_inv n en ps b v : ev n en (ELam ps b) v -> n = 0 /\ v = VFn en None (map fst ps) b.
Proof. inversion 1; auto. Qed.
Lemma ev_match_inv n en d brs v : ev n en (EMatch d brs) v -> exists i j c fs bs b,
  n = i + j /\ ev i en d (VComp c fs) /\ find_branch c brs = Some (bs, b) /\ length bs = length fs /\
  ev j (add_all en bs fs) b v.
Proof. inversion 1; subst. do 6 eexists. repeat (split; [eauto|]). auto. Qed.
Lemma ev_construct_inv n en c tys es v : ev n en (EConstruct c tys es) v -> exists vs,
  v = VComp c vs /\ evs n en es vs /\ length vs <= max_fields.
Proof. inversion 1; subst. do 1 eexists. repeat (split; [eauto|]). auto. Qed.
Lemma ev_let_inv n en x a b v : ev n en (ELet x a b) v -> exists i j va,
  n = i + j /\ ev i en a va /\ ev j ((x, va) :: en) b v.
Proof. inversion 1; subst. do 3 eexists. repeat (split; [eauto|]). auto. Qed.
Lemma ev_letrec_inv n en x t a b v : ev n en (ELetRec x t a b) v -> exists ps body,
  strip_pis a = ELam ps body /\ ev n ((x, VFn en (Some x) (map fst ps) body) :: en) b v.
Proof. inversion 1; subst. do 2 eexists. repeat (split; [eauto|]). auto. Qed.
Lemma ev_pi_inv n en t e v : ev n en (EPi t e) v -> ev n en e v.
Proof. inversion 1; auto. Qed.
Lemma ev_piapp_inv n en t e v : ev n en (EPiApp e t) v -> ev n en e v.
Proof. inversion 1; auto. Qed.
Lemma evs_cons_inv n en e es vs : evs n en (e :: es) vs -> exists i j w ws,
  n = i + j /\ vs = w :: ws /\ ev i en e w /\ evs j en es ws.
Proof. inversion 1; subst. do 4 eexists. repeat (split; [eauto|]). auto. Qed.
Lemma evs_nil_inv n en vs : evs n en [] vs -> n = 0 /\ vs = [].
Proof. inversion 1; auto. Qed.
