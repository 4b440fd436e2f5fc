(** Big-step reasoning about source programs: [evals] and [call] say that an expression or an application has a
    value, whatever bound on nested calls is large enough; one rule for each construct (used for C40, C45-C47). *)
From Verif Require Import GenFacts EvalFacts Orders SrcSem.
Set Implicit Arguments.

Section Mono.
  Variable o : order.
  Variable tys : stypes.
  Fixpoint find_case (c : sym) (l : list (sym * list sym * sexpr)) : option (list sym * sexpr) :=
    match l with
    | [] => None
    | ((c', xs), b) :: r => if Nat.eqb c' c then Some (xs, b) else find_case c r
    end.
  Lemma seval_match ap en f d cases : seval o tys ap en (SMatch f d cases) =
    (dv <- seval o tys ap en d ;;
     match dv with
     | WCon g c fs => if Bool.eqb g f then
         match find_case c cases with
         | Some (xs, b) => if length xs =? length fs then seval o tys ap (bind_all en xs fs) b else Panic
         | None => Panic
         end else Panic
     | _ => Panic
     end).
  Proof.
    cbn [seval]. destruct (seval o tys ap en d) as [dv| | |]; cbn [bind]; auto. destruct dv; auto. destruct (Bool.eqb _ _); auto.
    induction cases as [|[[c' xs] b] cases IH]; auto. cbn [find_case]. destruct (Nat.eqb c' c); auto.
  Qed.

  Lemma seval_mono ap ap' : (forall f a, lres (ap f a) (ap' f a)) -> forall e en, lres (seval o tys ap en e) (seval o tys ap' en e).
  Proof.
    intros H. induction e using sexpr_ind'; intros en; try (cbn [seval]; apply lres_refl).
    - cbn [seval]. unfold call2. destruct o; repeat (apply lres_bind; auto; intros). destruct (is_fun a); [|apply lres_refl]. apply lres_bind; auto.
    - cbn [seval]. apply lres_bind; auto. intros. apply lres_bind; [apply lres_refl|]. intros. apply lres_bind; auto. intros.
      apply lres_refl.
    - cbn [seval]. unfold call2. destruct o; repeat (apply lres_bind; auto; intros). destruct (is_fun a); [|apply lres_refl]. apply lres_bind; auto.
    - cbn [seval]. apply lres_bind; auto.
    - rewrite !seval_match. apply lres_bind; auto. intros dv. destruct dv; try apply lres_refl. destruct (Bool.eqb _ _); try apply lres_refl.
      destruct (find_case c cs) as [[xs b]|] eqn:E; [|apply lres_refl]. destruct (_ =? _); [|apply lres_refl].
      match goal with H : Forall _ cs |- _ => rename H into F end.
      assert (G : forall en, lres (seval o tys ap en b) (seval o tys ap' en b)); auto.
      clear - F E. induction cs as [|[[c' ys] b'] cs IH]; [discriminate|]. simpl in E. inversion F; subst.
      destruct (Nat.eqb c' c); [injection E as -> ->; auto|auto].
    - cbn [seval]. apply lres_bind; auto. intros. apply lres_bind; [apply lres_refl|]. intros []; auto.
    - cbn [seval]. auto.
  Qed.
  Lemma sapply_S k f a : sapply o tys (S k) f a =
    if is_fun f then
      match f with
      | WFun en x b => seval o tys (sapply o tys k) ((x, a) :: en) b
      | WFold tbl en x b =>
        match a with
        | WCon false c fs =>
          match lookup c tbl with
          | Some recs =>
            if length recs =? length fs then
              ws <- mapM (fun rf : bool * sval => if fst rf then sapply o tys k f (snd rf) else Ok (snd rf)) (combine recs fs) ;;
              w <- build true c ws ;; seval o tys (sapply o tys k) ((x, w) :: en) b
            else Panic
          | None => Panic
          end
        | _ => Panic
        end
      | WCtor c n got =>
        if S (length got) =? n then build false c (got ++ [a]) else Ok (WCtor c n (got ++ [a]))
      | WOp i got =>
        if S (length got) =? op_arity i then str_op i (got ++ [a]) else Ok (WOp i (got ++ [a]))
      | WIter got =>
        match got with
        | [n; g] => siter o tys k n g a
        | _ => Ok (WIter (got ++ [a]))
        end
      | _ => Panic
      end
    else Panic.
  Proof. reflexivity. Qed.
  Lemma siter_S k n g x : siter o tys (S k) n g x =
    (i <- as_int n ;; if N.eqb i 0 then Ok x else w <- sapply o tys k g x ;; siter o tys k (arith Subtract i 1) g w).
  Proof. reflexivity. Qed.
  Lemma sapply_mono_S n : (forall f a, lres (sapply o tys n f a) (sapply o tys (S n) f a)) /\
    (forall i g x, lres (siter o tys n i g x) (siter o tys (S n) i g x)).
  Proof.
    induction n as [|n [IHa IHi]].
    - split; [|intros; left; reflexivity]. intros f a. cbn [sapply]. destruct (is_fun f); [left; reflexivity|apply lres_refl].
    - split.
      + intros f a. rewrite (sapply_S (S n)), (sapply_S n). destruct (is_fun f); [|apply lres_refl].
        destruct f; try apply lres_refl.
        * apply seval_mono; auto.
        * destruct a; try apply lres_refl. destruct folded; try apply lres_refl. destruct (lookup c tbl); try apply lres_refl.
          destruct (_ =? _); try apply lres_refl. apply lres_bind.
          -- apply lres_mapM. apply Forall_forall. intros [r w] _. cbn [fst snd]. destruct r; [apply IHa|apply lres_refl].
          -- intros ws. apply lres_bind; [apply lres_refl|]. intros w. apply seval_mono; auto.
        * destruct got as [|x [|y [|z got]]]; try apply lres_refl. apply IHi.
      + intros i g x. rewrite (siter_S (S n)), (siter_S n). apply lres_bind; [apply lres_refl|]. intros k.
        destruct (N.eqb k 0); [apply lres_refl|]. apply lres_bind; auto.
  Qed.
  Lemma lres_trans {A} (a b c : res A) : lres a b -> lres b c -> lres a c.
  Proof. intros [->| ->] H; [left; auto|auto]. Qed.
  Lemma sapply_mono n m f a : n <= m -> lres (sapply o tys n f a) (sapply o tys m f a).
  Proof. induction 1; [apply lres_refl|]. eapply lres_trans; [exact IHle|apply sapply_mono_S]. Qed.
  Lemma siter_mono n m i g x : n <= m -> lres (siter o tys n i g x) (siter o tys m i g x).
  Proof. induction 1; [apply lres_refl|]. eapply lres_trans; [exact IHle|apply sapply_mono_S]. Qed.
End Mono.

Section Big.
  Variable o : order.
  Variable tys : stypes.
  Definition evals (en : senv) (e : sexpr) (v : sval) : Prop := exists n, seval o tys (sapply o tys n) en e = Ok v.
  Definition call (f a r : sval) : Prop := exists n, sapply o tys n f a = Ok r.
  Fixpoint calls (f : sval) (args : list sval) (r : sval) : Prop :=
    match args with
    | [] => r = f
    | a :: l => exists g, call f a g /\ calls g l r
    end.

  Lemma lres_ok {A} (a b : res A) v : lres a b -> a = Ok v -> b = Ok v.
  Proof. intros [->| ->]; [discriminate|auto]. Qed.
  Lemma seval_up n m en e v : n <= m -> seval o tys (sapply o tys n) en e = Ok v -> seval o tys (sapply o tys m) en e = Ok v.
  Proof. intros H. apply lres_ok. apply seval_mono. intros. apply sapply_mono; auto. Qed.
  Lemma sapply_up n m f a v : n <= m -> sapply o tys n f a = Ok v -> sapply o tys m f a = Ok v.
  Proof. intros H. apply lres_ok. apply sapply_mono; auto. Qed.
  Lemma siter_up n m i g x v : n <= m -> siter o tys n i g x = Ok v -> siter o tys m i g x = Ok v.
  Proof. intros H. apply lres_ok. apply siter_mono; auto. Qed.
  Lemma evals_det en e v w : evals en e v -> evals en e w -> v = w.
  Proof.
    intros [n H] [m H']. apply (@seval_up n (n + m)) in H; [|lia]. apply (@seval_up m (n + m)) in H'; [|lia]. congruence.
  Qed.
  Lemma app_det f a v w : call f a v -> call f a w -> v = w.
  Proof.
    intros [n H] [m H']. apply (@sapply_up n (n + m)) in H; [|lia]. apply (@sapply_up m (n + m)) in H'; [|lia]. congruence.
  Qed.
  Lemma apps_det l : forall f v w, calls f l v -> calls f l w -> v = w.
  Proof. induction l as [|a l IH]; simpl; intros f v w H H'; [congruence|]. destruct H as (g & H1 & H2), H' as (g' & H1' & H2').
    rewrite (app_det H1' H1) in H2'. eauto. Qed.

  Lemma app_isfun f a r : call f a r -> is_fun f = true.
  Proof. intros [n H]. destruct n; simpl in H; destruct (is_fun f); auto; discriminate. Qed.

  Lemma ev_name x ts en v : lookup x en = Some v -> evals en (SName x ts) v.
  Proof. intros H. exists 0. cbn [seval]. rewrite H. auto. Qed.
  Lemma ev_call2 en f a fv av r : evals en f fv -> evals en a av -> call fv av r ->
    exists n, call2 o (sapply o tys n) (seval o tys (sapply o tys n) en f) (seval o tys (sapply o tys n) en a) = Ok r.
  Proof.
    intros [n1 H1] [n2 H2] HA. pose proof (app_isfun HA) as Hf. destruct HA as [n3 H3]. exists (n1 + n2 + n3).
    apply (@seval_up _ (n1 + n2 + n3)) in H1, H2; try lia. apply (@sapply_up _ (n1 + n2 + n3)) in H3; try lia.
    unfold call2. rewrite H1, H2. destruct o; cbn [bind]; rewrite ?Hf; auto.
  Qed.
  Lemma ev_apply en f a fv av r : evals en f fv -> evals en a av -> call fv av r -> evals en (SApply f a) r.
  Proof. apply ev_call2. Qed.
  Lemma ev_pipe en f a fv av r : evals en a av -> evals en f fv -> call fv av r -> evals en (SPipe a f) r.
  Proof. intros. eapply ev_call2; eauto. Qed.
  Lemma ev_binary en a p b x y r : evals en a (WInt x) -> evals en b (WInt y) -> arith p x y = r -> evals en (SBinary a p b) r.
  Proof.
    intros [n1 H1] [n2 H2] <-. exists (n1 + n2). cbn [seval]. rewrite (@seval_up n1 (n1 + n2) _ _ _ ltac:(lia) H1). cbn [bind as_int].
    rewrite (@seval_up n2 (n1 + n2) _ _ _ ltac:(lia) H2). auto.
  Qed.
  Lemma ev_let en x vs v e w r : evals en v w -> evals ((x, w) :: en) e r -> evals en (SLet x vs v e) r.
  Proof.
    intros [n1 H1] [n2 H2]. exists (n1 + n2). cbn [seval]. rewrite (@seval_up n1 (n1 + n2) _ _ _ ltac:(lia) H1). cbn [bind].
    apply (@seval_up n2 (n1 + n2)); auto. lia.
  Qed.
  Lemma ev_match en f d cases c fs xs b r : evals en d (WCon f c fs) -> find_case c cases = Some (xs, b) -> length xs = length fs ->
    evals (bind_all en xs fs) b r -> evals en (SMatch f d cases) r.
  Proof.
    intros [n1 H1] Hc Hl [n2 H2]. exists (n1 + n2). rewrite seval_match, (@seval_up n1 (n1 + n2) _ _ _ ltac:(lia) H1). cbn [bind].
    rewrite Bool.eqb_reflx, Hc, Hl, Nat.eqb_refl. apply (@seval_up n2 (n1 + n2)); auto. lia.
  Qed.
  Lemma ev_if en c t e (b : bool) r : evals en c (WBool b) -> (if b then evals en t r else evals en e r) -> evals en (SIf c t e) r.
  Proof.
    intros [n1 H1] H. destruct b; destruct H as [n2 H2]; exists (n1 + n2); cbn [seval]; rewrite (@seval_up n1 (n1 + n2) _ _ _ ltac:(lia) H1);
      cbn [bind as_bool]; apply (@seval_up n2 (n1 + n2)); auto; lia.
  Qed.
  Lemma ev_bool en b : evals en (SBoolean b) (WBool b). Proof. exists 0. auto. Qed.
  Lemma ev_num en b : evals en (SNumber b) (WInt b). Proof. exists 0. auto. Qed.
  Lemma ev_str en b : evals en (SStr b) (WStr b). Proof. exists 0. auto. Qed.
  Lemma ev_lam en x vs t b : evals en (SLam x vs t b) (WFun en x b). Proof. exists 0. auto. Qed.
  Lemma ev_fold en y args t x b tbl : lookup y tys = Some tbl -> evals en (SFold (SFn (SNamed y args) t) x b) (WFold tbl en x b).
  Proof. intros H. exists 0. cbn [seval]. rewrite H. auto. Qed.
  Lemma ev_paren en e v : evals en e v -> evals en (SParen e) v. Proof. intros [n H]. exists n. auto. Qed.

  Lemma app_fun en x b a r : evals ((x, a) :: en) b r -> call (WFun en x b) a r.
  Proof. intros [n H]. exists (S n). auto. Qed.
  (** Fields of a value, with the recursive ones replaced by results of [f]. *)
  Inductive replaced (f : sval) : list bool -> list sval -> list sval -> Prop :=
  | rp_nil : replaced f [] [] []
  | rp_keep l v vs ws : replaced f l vs ws -> replaced f (false :: l) (v :: vs) (v :: ws)
  | rp_rec l v w vs ws : call f v w -> replaced f l vs ws -> replaced f (true :: l) (v :: vs) (w :: ws).
  Lemma app_fold tbl en x b c fs recs ws r : lookup c tbl = Some recs -> replaced (WFold tbl en x b) recs fs ws -> length ws <= max_fields ->
    evals ((x, WCon true c ws) :: en) b r -> call (WFold tbl en x b) (WCon false c fs) r.
  Proof.
    intros Hc HR HL [n2 H2].
    assert (HM : exists n, mapM (fun rf : bool * sval => if fst rf then sapply o tys n (WFold tbl en x b) (snd rf) else Ok (snd rf)) (combine recs fs) = Ok ws /\
                  length recs = length fs).
    { clear - HR. induction HR as [|l v vs ws HR [n [IH HL]]|l v w vs ws [m HA] HR [n [IH HL]]].
      - exists 0. auto.
      - exists n. simpl. rewrite IH. simpl. auto.
      - exists (m + n). split; [|simpl; auto]. cbn [combine]. rewrite mapM_cons. cbn [fst snd]. rewrite (@sapply_up m (m + n) _ _ _ ltac:(lia) HA). cbn [bind].
        assert (E : mapM (fun rf : bool * sval => if fst rf then sapply o tys (m + n) (WFold tbl en x b) (snd rf) else Ok (snd rf)) (combine l vs) = Ok ws).
        { eapply lres_ok; [|exact IH]. apply lres_mapM. apply Forall_forall. intros [r0 w0] _. cbn [fst snd]. destruct r0; [apply sapply_mono; lia|apply lres_refl]. }
        rewrite E. auto. }
    destruct HM as [n1 [HM HLn]]. exists (S (n1 + n2)). cbn [sapply is_fun]. rewrite Hc, HLn, Nat.eqb_refl.
    assert (E : mapM (fun rf : bool * sval => if fst rf then sapply o tys (n1 + n2) (WFold tbl en x b) (snd rf) else Ok (snd rf)) (combine recs fs) = Ok ws).
    { eapply lres_ok; [|exact HM]. apply lres_mapM. apply Forall_forall. intros [r0 w0] _. cbn [fst snd]. destruct r0; [apply sapply_mono; lia|apply lres_refl]. }
    rewrite E. cbn [bind]. unfold build. replace (length ws <=? max_fields) with true by (symmetry; apply Nat.leb_le; auto). cbn [bind].
    apply (@seval_up n2 (n1 + n2)); auto. lia.
  Qed.
  Lemma app_ctor_done c n got a : S (length got) = n -> n <= max_fields -> call (WCtor c n got) a (WCon false c (got ++ [a])).
  Proof.
    intros H Hm. exists 1. cbn [sapply is_fun]. rewrite H, Nat.eqb_refl. unfold build. rewrite app_length. simpl.
    replace (length got + 1 <=? max_fields) with true by (symmetry; apply Nat.leb_le; lia). auto.
  Qed.
  Lemma app_ctor_more c n got a : S (length got) < n -> call (WCtor c n got) a (WCtor c n (got ++ [a])).
  Proof. intros H. exists 1. cbn [sapply is_fun]. replace (S (length got) =? n) with false by (symmetry; apply Nat.eqb_neq; lia). auto. Qed.
  Lemma app_op_done i got a r : S (length got) = op_arity i -> str_op i (got ++ [a]) = Ok r -> call (WOp i got) a r.
  Proof. intros H E. exists 1. cbn [sapply is_fun]. rewrite H, Nat.eqb_refl. auto. Qed.
  Lemma app_op_more i got a : S (length got) < op_arity i -> call (WOp i got) a (WOp i (got ++ [a])).
  Proof. intros H. exists 1. cbn [sapply is_fun]. replace (S (length got) =? op_arity i) with false by (symmetry; apply Nat.eqb_neq; lia). auto. Qed.

  (** [k] applications. *)
  Inductive iters (g : sval) : nat -> sval -> sval -> Prop :=
  | it_0 x : iters g 0 x x
  | it_S k x y r : call g x y -> iters g k y r -> iters g (S k) x r.
  Lemma app_iter_0 a : call (WIter []) a (WIter [a]). Proof. exists 1. auto. Qed.
  Lemma app_iter_1 n a : call (WIter [n]) a (WIter [n; a]). Proof. exists 1. auto. Qed.
  Lemma app_iter n g x r : (n < W64)%N -> iters g (N.to_nat n) x r -> call (WIter [WInt n; g]) x r.
  Proof.
    intros Hn HI. assert (G : exists m, siter o tys m (WInt n) g x = Ok r).
    { remember (N.to_nat n) as k eqn:Ek. revert n Hn Ek. induction HI as [x|k x y r [m1 HA] _ IH]; intros n Hn Ek.
      - exists 1. rewrite siter_S. cbn [as_int bind]. replace (N.eqb n 0) with true by (symmetry; apply N.eqb_eq; lia). auto.
      - destruct (IH (n - 1)%N) as [m2 Hm]; [lia|lia|]. exists (S (m1 + m2)). rewrite siter_S. cbn [as_int bind].
        replace (N.eqb n 0) with false by (symmetry; apply N.eqb_neq; lia). rewrite (@sapply_up m1 (m1 + m2) _ _ _ ltac:(lia) HA). cbn [bind].
        replace (arith Subtract n 1) with (WInt (n - 1)); [apply (@siter_up m2 (m1 + m2)); auto; lia|].
        unfold arith, eval_op, wrap. f_equal. replace (n + (W64 - 1))%N with ((n - 1) + 1 * W64)%N by (unfold W64 in *; lia).
        rewrite N.mod_add by (unfold W64; lia). rewrite N.mod_small; auto. lia. }
    destruct G as [m G]. exists (S m). rewrite sapply_S. cbn [is_fun]. auto.
  Qed.
  Lemma apps_app l1 : forall f l2 g r, calls f l1 g -> calls g l2 r -> calls f (l1 ++ l2) r.
  Proof. induction l1 as [|a l1 IH]; simpl; intros f l2 g r H1 H2; [subst; auto|]. destruct H1 as (g' & Ha & Hr). exists g'. split; eauto. Qed.
End Big.
