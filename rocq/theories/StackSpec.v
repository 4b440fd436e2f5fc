(** Specification for C02: how many function activations a run needs at the same time, when a call of a
    recursive function to itself in tail position reuses the activation of its caller.  This is the
    evaluator of Eval.v (arguments before callee) returning, beside its outcome, the largest number of
    activations that were live at once. *)
From Verif Require Export EvalFacts.

(** An outcome with the number of nested activations it took. *)
Definition dres (A : Type) : Type := (res A * nat)%type.

Definition dret {A} (r : res A) : dres A := (r, 0).
Definition dbind {A B} (r : dres A) (f : A -> dres B) : dres B :=
  match fst r with
  | Ok a => let q := f a in (fst q, Nat.max (snd r) (snd q))
  | Trap m => (Trap m, snd r)
  | Panic => (Panic, snd r)
  | OutOfFuel => (OutOfFuel, snd r)
  end.
Notation "x <~ r ;; k" := (dbind r (fun x => k)) (at level 61, r at next level, right associativity).

(** One more activation around [r]. *)
Definition activation {A} (r : dres A) : dres A := (fst r, S (snd r)).

Definition dmapM {A B} (f : A -> dres B) : list A -> dres (list B) :=
  fix go (l : list A) : dres (list B) :=
    match l with
    | [] => dret (Ok [])
    | a :: r => v <~ f a ;; vs <~ go r ;; dret (Ok (v :: vs))
    end.

(** A call, in tail position of the recursive function [self], of [self]. *)
Definition self_call (self : option name) (tail : bool) (f : expr) : bool :=
  match f, self with
  | EName n, Some m => tail && Nat.eqb m n
  | _, _ => false
  end.

(** Eval.v, the intrinsics. *)
Definition intr_d (go : expr -> dres value) (i : intrinsic) (xs : list expr) : dres value :=
  match i, xs with
  | StringLen, x0 :: _ => v <~ go x0 ;; s <~ dret (into_string v) ;; dret (Ok (VInt (str_len s)))
  | StringConcat, x0 :: r =>
    v0 <~ go x0 ;; s1 <~ dret (into_string v0) ;;
    match r with
    | x1 :: _ => v1 <~ go x1 ;; s2 <~ dret (into_string v1) ;; dret (Ok (VStr (s1 ++ s2)))
    | [] => dret Panic
    end
  | StringCharAt, x0 :: r =>
    v0 <~ go x0 ;; idx <~ dret (into_int v0) ;;
    match r with
    | x1 :: _ => v1 <~ go x1 ;; s <~ dret (into_string v1) ;; dret (Ok (VInt (str_char_at idx s)))
    | [] => dret Panic
    end
  | StringSubstring, x0 :: r =>
    v0 <~ go x0 ;; start <~ dret (into_int v0) ;;
    match r with
    | x1 :: r' =>
      v1 <~ go x1 ;; len <~ dret (into_int v1) ;;
      match r' with
      | x2 :: _ => v2 <~ go x2 ;; s <~ dret (into_string v2) ;; dret (Ok (VStr (str_substring start len s)))
      | [] => dret Panic
      end
    | [] => dret Panic
    end
  | StringFromChar, x0 :: _ => v <~ go x0 ;; c <~ dret (into_int v) ;; dret (Ok (VStr (str_from_char c)))
  | IntToString, x0 :: _ => v <~ go x0 ;; i <~ dret (into_int v) ;; dret (Ok (VStr (int_to_string i)))
  | _, [] => dret Panic
  end.

(** [self] is the recursive function whose body is being evaluated, [tail] whether the value of the
    expression is that function's result. *)
Fixpoint eval_d (fuel : nat) : option name -> bool -> env -> expr -> dres value :=
  fix go (self : option name) (tail : bool) (en : env) (e : expr) {struct e} : dres value :=
    match e with
    | EBool b => dret (Ok (VBool b))
    | EInt i => dret (Ok (VInt i))
    | EString s => dret (Ok (VStr s))
    | EName n => dret match lookup n en with Some v => Ok v | None => Panic end
    | ECall f args =>
      vs <~ dmapM (go self false en) args ;;
      fv <~ go self false en f ;;
      match fv with
      | VFn cenv rec ps body =>
        if length ps =? length vs then
          let r := match fuel with
                   | O => dret OutOfFuel
                   | S k => eval_d k rec true (call_env cenv rec ps body vs) body
                   end in
          if self_call self tail f then r else activation r
        else dret Panic
      | _ => dret Panic
      end
    | EIf c t e => cv <~ go self false en c ;; b <~ dret (into_bool cv) ;;
                   if b then go self tail en t else go self tail en e
    | EIntr i xs => (intr_d (go self false en) i xs)
    | EOp a op b =>
      va <~ go self false en a ;; x <~ dret (into_int va) ;;
      vb <~ go self false en b ;; y <~ dret (into_int vb) ;; dret (Ok (eval_op op x y))
    | ELam ps body => dret (Ok (VFn en None (map fst ps) body))
    | EMatch d brs =>
      dv <~ go self false en d ;;
      match dv with
      | VComp c fs =>
        (fix find (l : list (name * list name * expr)) : dres value :=
           match l with
           | [] => dret Panic
           | ((c', bs), b) :: r =>
             if Nat.eqb c' c then
               if length bs =? length fs then go self tail (add_all en bs fs) b else dret Panic
             else find r
           end) brs
      | _ => dret Panic
      end
    | EConstruct c _ fields => vs <~ dmapM (go self false en) fields ;; dret (mk_tagged c vs)
    | ELet n v e => vv <~ go self false en v ;; go self tail ((n, vv) :: en) e
    | ELetRec n _ v e =>
      match strip_pis v with
      | ELam ps body => go self tail ((n, VFn en (Some n) (map fst ps) body) :: en) e
      | _ => dret Panic
      end
    | EPi _ e => go self tail en e
    | EPiApp e _ => go self tail en e
    | ETrap m _ => dret (Trap m)
    end.

Fixpoint eval_defs_d (fuel : nat) (en : env) (ds : list valdef) : dres env :=
  match ds with
  | [] => dret (Ok en)
  | d :: r => v <~ eval_d fuel None false en (vd_value d) ;; eval_defs_d fuel ((vd_name d, v) :: en) r
  end.
Definition run_d (fuel : nat) (p : program) (exprs : list expr) : dres (list value) :=
  en <~ eval_defs_d fuel [] (p_defs p) ;; dmapM (eval_d fuel None false en) exprs.

(** The largest number of nested activations while running a program. *)
Definition nesting (fuel : nat) (p : program) (exprs : list expr) : nat := snd (run_d fuel p exprs).

(** ** Unfolding *)
Definition eval_d_eqn (n : nat) (self : option name) (tail : bool) (en : env) (e : expr) : dres value :=
  let go := eval_d n in
  match e with
  | EBool b => dret (Ok (VBool b))
  | EInt i => dret (Ok (VInt i))
  | EString s => dret (Ok (VStr s))
  | EName n => dret match lookup n en with Some v => Ok v | None => Panic end
  | ECall f args =>
    vs <~ dmapM (go self false en) args ;;
    fv <~ go self false en f ;;
    match fv with
    | VFn cenv rec ps body =>
      if length ps =? length vs then
        let r := match n with
                 | O => dret OutOfFuel
                 | S k => eval_d k rec true (call_env cenv rec ps body vs) body
                 end in
        if self_call self tail f then r else activation r
      else dret Panic
    | _ => dret Panic
    end
  | EIf c t e => cv <~ go self false en c ;; b <~ dret (into_bool cv) ;;
                 if b then go self tail en t else go self tail en e
  | EIntr i xs => (intr_d (go self false en) i xs)
  | EOp a op b =>
    va <~ go self false en a ;; x <~ dret (into_int va) ;;
    vb <~ go self false en b ;; y <~ dret (into_int vb) ;; dret (Ok (eval_op op x y))
  | ELam ps body => dret (Ok (VFn en None (map fst ps) body))
  | EMatch d brs =>
    dv <~ go self false en d ;;
    match dv with
    | VComp c fs =>
      match find_branch c brs with
      | Some (bs, b) => if length bs =? length fs then go self tail (add_all en bs fs) b else dret Panic
      | None => dret Panic
      end
    | _ => dret Panic
    end
  | EConstruct c _ fields => vs <~ dmapM (go self false en) fields ;; dret (mk_tagged c vs)
  | ELet x v e => vv <~ go self false en v ;; go self tail ((x, vv) :: en) e
  | ELetRec x _ v e =>
    match strip_pis v with
    | ELam ps body => go self tail ((x, VFn en (Some x) (map fst ps) body) :: en) e
    | _ => dret Panic
    end
  | EPi _ e => go self tail en e
  | EPiApp e _ => go self tail en e
  | ETrap m _ => dret (Trap m)
  end.

Lemma dbind_ext {A B} (r : dres A) (f g : A -> dres B) :
  (forall a, f a = g a) -> dbind r f = dbind r g.
Proof. intros H; unfold dbind. destruct (fst r); auto. rewrite H. auto. Qed.

Lemma eval_d_unfold n self tail en e : eval_d n self tail en e = eval_d_eqn n self tail en e.
Proof.
  destruct e; try (destruct n; reflexivity).
  assert (H : forall go : env -> expr -> dres value, forall c fs l,
      (fix find (l : list (name * list name * expr)) : dres value :=
             match l with
             | [] => dret Panic
             | ((c', bs), b) :: r =>
               if Nat.eqb c' c then
                 if length bs =? length fs then go (add_all en bs fs) b else dret Panic
               else find r
             end) l =
      match find_branch c l with
      | Some (bs, b) => if length bs =? length fs then go (add_all en bs fs) b else dret Panic
      | None => dret Panic
      end).
  { intros go c fs l; induction l as [|[[c' bs] b] r IH]; simpl; auto.
      destruct (Nat.eqb c' c); auto. }
  destruct n; unfold eval_d_eqn; cbn [eval_d]; apply dbind_ext; intros v; destruct v; auto;
    first [apply (H (fun en e => eval_d 0 self tail en e)) | apply (H (fun en e => eval_d (S n) self tail en e))].
Qed.

(** ** The outcome is the evaluator's *)
Lemma fst_dbind {A B} (r : dres A) (f : A -> dres B) (r' : res A) (f' : A -> res B) :
  fst r = r' -> (forall a, fst (f a) = f' a) -> fst (dbind r f) = bind r' f'.
Proof. intros <- H. unfold dbind, bind. destruct (fst r); simpl; auto. Qed.

Lemma fst_dmapM {A B} (f : A -> dres B) (g : A -> res B) l :
  Forall (fun a => fst (f a) = g a) l -> fst (dmapM f l) = mapM g l.
Proof.
  induction 1 as [|a l H _ IH]; auto.
  simpl. apply fst_dbind; auto. intros v. apply fst_dbind; auto.
Qed.

Lemma intr_d_eval go g i xs : Forall (fun a => fst (go a) = g a) xs ->
  fst (intr_d go i xs) =
    match i, xs with
    | StringLen, x0 :: _ => v <- g x0 ;; s <- into_string v ;; Ok (VInt (str_len s))
    | StringConcat, x0 :: r =>
      v0 <- g x0 ;; s1 <- into_string v0 ;;
      match r with
      | x1 :: _ => v1 <- g x1 ;; s2 <- into_string v1 ;; Ok (VStr (s1 ++ s2))
      | [] => Panic
      end
    | StringCharAt, x0 :: r =>
      v0 <- g x0 ;; idx <- into_int v0 ;;
      match r with
      | x1 :: _ => v1 <- g x1 ;; s <- into_string v1 ;; Ok (VInt (str_char_at idx s))
      | [] => Panic
      end
    | StringSubstring, x0 :: r =>
      v0 <- g x0 ;; start <- into_int v0 ;;
      match r with
      | x1 :: r' =>
        v1 <- g x1 ;; len <- into_int v1 ;;
        match r' with
        | x2 :: _ => v2 <- g x2 ;; s <- into_string v2 ;; Ok (VStr (str_substring start len s))
        | [] => Panic
        end
      | [] => Panic
      end
    | StringFromChar, x0 :: _ => v <- g x0 ;; c <- into_int v ;; Ok (VStr (str_from_char c))
    | IntToString, x0 :: _ => v <- g x0 ;; i <- into_int v ;; Ok (VStr (int_to_string i))
    | _, [] => Panic
    end.
Proof.
  intros H. destruct i; simpl; inversion H as [|x0 l H0 H1]; subst; auto;
    repeat (apply fst_dbind; auto; intros);
    (inversion H1 as [|x1 l1 H2 H3]; subst; auto);
    repeat (apply fst_dbind; auto; intros);
    (inversion H3 as [|x2 l2 H4 H5]; subst; auto);
    repeat (apply fst_dbind; auto; intros).
Qed.

Theorem eval_d_outcome n : forall e self tail en, fst (eval_d n self tail en e) = eval_o ArgsFirst n en e.
Proof.
  induction n as [n IHn] using lt_wf_ind. intros e.
  induction e using expr_ind_rec; intros self tail en; rewrite eval_d_unfold, eval_unfold;
    unfold eval_d_eqn, eval_eqn; auto.
  - apply fst_dbind; [apply fst_dmapM; eapply Forall_impl; [|eassumption]; auto|]. intros vs.
    apply fst_dbind; auto. intros fv. destruct fv; auto. unfold call_o.
    destruct (length ps =? length vs); auto. cbv zeta.
    destruct n as [|k]; [destruct (self_call self tail e); auto|].
    destruct (self_call self tail e); cbn [fst activation]; apply IHn; lia.
  - apply fst_dbind; auto. intros v. apply fst_dbind; auto. intros b. destruct b; auto.
  - apply fst_dbind; auto. intros v. apply fst_dbind; auto. intros b. apply fst_dbind; auto. intros w.
    apply fst_dbind; auto.
  - apply (@intr_d_eval _ (eval_o ArgsFirst n en)). eapply Forall_impl; [|eassumption]; auto.
  - apply fst_dbind; auto. intros v. destruct v; auto. destruct (find_branch c brs) as [[bs b]|] eqn:Ef; auto.
    destruct (length bs =? length fs); auto.
    assert (Hin : In ((c, bs), b) brs).
    { clear - Ef. induction brs as [|[[c' bs'] b'] r IH]; simpl in *; [discriminate|].
      destruct (Nat.eqb_spec c' c); [injection Ef as <- <-; subst; auto|auto]. }
    rewrite Forall_forall in H. apply (H _ Hin).
  - apply fst_dbind; auto. apply fst_dmapM; eapply Forall_impl; [|eassumption]; auto.
  - apply fst_dbind; auto.
  - destruct (strip_pis e1); auto.
Qed.

Theorem run_d_outcome n p exprs : fst (run_d n p exprs) = run_o ArgsFirst n p exprs.
Proof.
  unfold run_d, run_o. apply fst_dbind.
  - generalize (@nil (name * value)). induction (p_defs p) as [|d ds IH]; intros en; simpl; auto.
    apply fst_dbind; auto. apply eval_d_outcome.
  - intros en. apply fst_dmapM. apply Forall_forall. intros; apply eval_d_outcome.
Qed.
