(** Unfolding equations and basic facts about the evaluator. *)
From Verif Require Export Eval.

Definition eval_eqn (o : order) (n : nat) (en : env) (e : expr) : res value :=
  let go := eval_o o n in
  match e with
  | EBool b => Ok (VBool b)
  | EInt i => Ok (VInt i)
  | EString s => Ok (VStr s)
  | EName x => match lookup x en with Some v => Ok v | None => Panic end
  | ECall f args =>
    match o with
    | FnFirst =>
      fv <- go en f ;;
      match fv with
      | VFn _ _ _ _ => vs <- mapM (go en) args ;; call_o o n fv vs
      | _ => Panic
      end
    | ArgsFirst => vs <- mapM (go en) args ;; fv <- go en f ;; call_o o n fv vs
    end
  | EIf c t e => cv <- go en c ;; b <- into_bool cv ;; if b then go en t else go en e
  | EIntr i xs =>
    match i, xs with
    | StringLen, x0 :: _ => v <- go en x0 ;; s <- into_string v ;; Ok (VInt (str_len s))
    | StringConcat, x0 :: r =>
      v0 <- go en x0 ;; s1 <- into_string v0 ;;
      match r with
      | x1 :: _ => v1 <- go en x1 ;; s2 <- into_string v1 ;; Ok (VStr (s1 ++ s2))
      | [] => Panic
      end
    | StringCharAt, x0 :: r =>
      v0 <- go en x0 ;; idx <- into_int v0 ;;
      match r with
      | x1 :: _ => v1 <- go en x1 ;; s <- into_string v1 ;; Ok (VInt (str_char_at idx s))
      | [] => Panic
      end
    | StringSubstring, x0 :: r =>
      v0 <- go en x0 ;; start <- into_int v0 ;;
      match r with
      | x1 :: r' =>
        v1 <- go en x1 ;; len <- into_int v1 ;;
        match r' with
        | x2 :: _ => v2 <- go en x2 ;; s <- into_string v2 ;; Ok (VStr (str_substring start len s))
        | [] => Panic
        end
      | [] => Panic
      end
    | StringFromChar, x0 :: _ => v <- go en x0 ;; c <- into_int v ;; Ok (VStr (str_from_char c))
    | IntToString, x0 :: _ => v <- go en x0 ;; i <- into_int v ;; Ok (VStr (int_to_string i))
    | _, [] => Panic
    end
  | EOp a op b =>
    va <- go en a ;; x <- into_int va ;; vb <- go en b ;; y <- into_int vb ;; Ok (eval_op op x y)
  | ELam ps body => Ok (VFn en None (map fst ps) body)
  | EMatch d brs =>
    dv <- go en d ;;
    match dv with
    | VComp c fs =>
      match find_branch c brs with
      | Some (bs, b) => if length bs =? length fs then go (add_all en bs fs) b else Panic
      | None => Panic
      end
    | _ => Panic
    end
  | EConstruct c _ fields => vs <- mapM (go en) fields ;; mk_tagged c vs
  | ELet x v e => vv <- go en v ;; go ((x, vv) :: en) e
  | ELetRec x _ v e =>
    match strip_pis v with
    | ELam ps body => go ((x, VFn en (Some x) (map fst ps) body) :: en) e
    | _ => Panic
    end
  | EPi _ e => go en e
  | EPiApp e _ => go en e
  | ETrap m _ => Trap m
  end.

Lemma bind_ext {A B} (r : res A) (f g : A -> res B) :
  (forall a, f a = g a) -> bind r f = bind r g.
Proof. intros H; destruct r; simpl; auto. Qed.

Lemma eval_unfold o n en e : eval_o o n en e = eval_eqn o n en e.
Proof.
  destruct e; try (destruct n; reflexivity).
  assert (H : forall go : env -> expr -> res value, forall c fs l,
      (fix find (l : list (name * list name * expr)) : res value :=
             match l with
             | [] => Panic
             | ((c', bs), b) :: r =>
               if Nat.eqb c' c then
                 if length bs =? length fs then go (add_all en bs fs) b else Panic
               else find r
             end) l =
      match find_branch c l with
      | Some (bs, b) => if length bs =? length fs then go (add_all en bs fs) b else Panic
      | None => Panic
      end).
  { intros go c fs l; induction l as [|[[c' bs] b] r IH]; simpl; auto.
      destruct (Nat.eqb c' c); auto. }
    destruct n; unfold eval_eqn; cbn [eval_o]; apply bind_ext; intros v; destruct v; auto; apply H.
Qed.

Lemma bind_ok {A B} (r : res A) (f : A -> res B) b :
  bind r f = Ok b -> exists a, r = Ok a /\ f a = Ok b.
Proof. destruct r; simpl; intros H; try discriminate; eauto. Qed.

Lemma mapM_cons {A B} (f : A -> res B) a l :
  mapM f (a :: l) = (v <- f a ;; vs <- mapM f l ;; Ok (v :: vs)).
Proof. reflexivity. Qed.

Lemma mapM_length {A B} (f : A -> res B) l vs : mapM f l = Ok vs -> length vs = length l.
Proof.
  revert vs; induction l as [|a l IH]; intros vs H.
  - simpl in H; injection H as <-; reflexivity.
  - rewrite mapM_cons in H. apply bind_ok in H as (v & _ & H). apply bind_ok in H as (vs' & E & H).
    injection H as <-. simpl. f_equal; auto.
Qed.
