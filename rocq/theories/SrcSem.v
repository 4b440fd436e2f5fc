(** Specification for C44: what a source program means.  An evaluator for the annotated source of GenCore.v,
    written from the language: functions of one argument, constructors and the built-in functions collect
    their arguments one at a time, a fold replaces the recursive fields of a value by its own results before
    its body runs, and a program is the list of its items in the order they run, each imported module at its
    first import.  Types are read in one place only: which constructors a fold runs over.

    [fuel] bounds the depth of nested calls (as in Eval.v); [o] is the order in which the function and the
    argument of a call are evaluated, which decides which of two traps is seen. *)
From Verif Require Export GenCore.
From Coq Require Ascii String.
Import String.StringSyntax.
Set Implicit Arguments.
Local Open Scope string_scope.

(** Values.  [WCon true c fs] is a value as the body of a fold sees it: built with [c], recursive fields
    already replaced.  The last four are functions. *)
Inductive sval : Type :=
| WInt (i : N)
| WBool (b : bool)
| WStr (s : bytes)
| WCon (folded : bool) (c : sym) (fs : list sval)
| WFun (en : list (sym * sval)) (x : sym) (body : sexpr)
| WFold (tbl : list (sym * list bool)) (en : list (sym * sval)) (x : sym) (body : sexpr)
| WCtor (c : sym) (arity : nat) (got : list sval)      (* a constructor waiting for more fields *)
| WOp (i : intrinsic) (got : list sval)                (* a string function waiting for more arguments *)
| WIter (got : list sval).                             (* [iterate], with at most two arguments so far *)
Definition senv := list (sym * sval).

(** For each declared type, its constructors and which of their fields are recursive. *)
Definition stypes := list (sym * list (sym * list bool)).

Definition is_fun (v : sval) : bool :=
  match v with WFun _ _ _ | WFold _ _ _ _ | WCtor _ _ _ | WOp _ _ | WIter _ => true | _ => false end.

(** Values of constructors have at most nine fields (tagged.rs:24-38). *)
Definition build (folded : bool) (c : sym) (fs : list sval) : res sval :=
  if length fs <=? max_fields then Ok (WCon folded c fs) else Panic.

Definition arith (o : op) (a b : N) : sval :=
  match eval_op o a b with VInt i => WInt i | VBool b => WBool b | _ => WInt 0 end.
Definition as_int (v : sval) : res N := match v with WInt i => Ok i | _ => Panic end.
Definition as_bool (v : sval) : res bool := match v with WBool b => Ok b | _ => Panic end.

(** The string functions, given all their arguments. *)
Definition str_op (i : intrinsic) (args : list sval) : res sval :=
  match i, args with
  | StringLen, [WStr s] => Ok (WInt (str_len s))
  | StringConcat, [WStr a; WStr b] => Ok (WStr (a ++ b))
  | StringCharAt, [WInt n; WStr s] => Ok (WInt (str_char_at n s))
  | StringSubstring, [WInt a; WInt n; WStr s] => Ok (WStr (str_substring a n s))
  | StringFromChar, [WInt c] => Ok (WStr (str_from_char c))
  | IntToString, [WInt n] => Ok (WStr (int_to_string n))
  | _, _ => Panic
  end.
Definition op_arity (i : intrinsic) : nat := length (intrinsic_params i).

Fixpoint bind_all (en : senv) (xs : list sym) (vs : list sval) : senv :=
  match xs, vs with
  | x :: xs', v :: vs' => bind_all ((x, v) :: en) xs' vs'
  | _, _ => en
  end.

Section Sem.
  Variable o : order.
  Variable tys : stypes.

  (** Expressions, given how functions are applied. *)
  Section Expr.
    Variable ap : sval -> sval -> res sval.
    Definition call2 (f a : res sval) : res sval :=
      match o with
      | FnFirst => fv <- f ;; if is_fun fv then av <- a ;; ap fv av else Panic
      | ArgsFirst => av <- a ;; fv <- f ;; ap fv av
      end.
    Fixpoint seval (en : senv) (e : sexpr) {struct e} : res sval :=
      match e with
      | SName x _ => match lookup x en with Some v => Ok v | None => Panic end
      | SApply f a => call2 (seval en f) (seval en a)
      | SPipe a f => call2 (seval en f) (seval en a)
      | SBinary a p b =>
        va <- seval en a ;; x <- as_int va ;; vb <- seval en b ;; y <- as_int vb ;; Ok (arith p x y)
      | SLet x _ v e => w <- seval en v ;; seval ((x, w) :: en) e
      | SMatch folded d cases =>
        dv <- seval en d ;;
        match dv with
        | WCon f c fs =>
          if Bool.eqb f folded then
            (fix find (l : list (sym * list sym * sexpr)) : res sval :=
               match l with
               | [] => Panic
               | ((c', xs), b) :: r =>
                 if Nat.eqb c' c
                 then if length xs =? length fs then seval (bind_all en xs fs) b else Panic
                 else find r
               end) cases
          else Panic
        | _ => Panic
        end
      | SIf c t e => cv <- seval en c ;; b <- as_bool cv ;; if b then seval en t else seval en e
      | SBoolean b => Ok (WBool b)
      | SNumber n => Ok (WInt n)
      | SStr s => Ok (WStr s)
      | SLam x _ _ b => Ok (WFun en x b)
      | SFold t x b =>
        match t with
        | SFn (SNamed y _) _ =>
          match lookup y tys with
          | Some tbl => Ok (WFold tbl en x b)
          | None => Ok (WFun en x b)
          end
        | _ => Ok (WFun en x b)
        end
      | SParen e => seval en e
      | SHole text _ =>
        Trap (map (fun c => N.of_nat (Ascii.nat_of_ascii c)) (String.list_ascii_of_string "encountered ") ++ text)
      end.
  End Expr.

  (** Applying a function to one argument.  [siter] runs the loop of [iterate]. *)
  Fixpoint sapply (fuel : nat) (f a : sval) {struct fuel} : res sval :=
    if is_fun f then
      match fuel with
      | O => OutOfFuel
      | S k =>
        match f with
        | WFun en x b => seval (sapply k) ((x, a) :: en) b
        | WFold tbl en x b =>
          match a with
          | WCon false c fs =>
            match lookup c tbl with
            | Some recs =>
              if length recs =? length fs then
                ws <- mapM (fun rf : bool * sval => if fst rf then sapply k f (snd rf) else Ok (snd rf)) (combine recs fs) ;;
                w <- build true c ws ;; seval (sapply k) ((x, w) :: en) b
              else Panic
            | None => Panic
            end
          | _ => Panic
          end
        | WCtor c n got =>
          if S (length got) =? n then build false c (got ++ [a]) else Ok (WCtor c n (got ++ [a]))
        | WOp i got =>
          if S (length got) =? op_arity i then str_op i (got ++ [a]) else Ok (WOp i (got ++ [a]))
        | WIter got =>
          match got with
          | [n; g] => siter k n g a
          | _ => Ok (WIter (got ++ [a]))
          end
        | _ => Panic
        end
      end
    else Panic
  with siter (fuel : nat) (n g x : sval) {struct fuel} : res sval :=
    match fuel with
    | O => OutOfFuel
    | S k =>
      i <- as_int n ;;
      if N.eqb i 0 then Ok x else w <- sapply k g x ;; siter k (arith Subtract i 1) g w
    end.

  (** One item of the flattened program, see below. *)
  Definition srun_item (fuel : nat) (en : senv) (i : item) : res senv :=
    match i with
    | ITy _ _ cases =>
      Ok (fold_left (fun en c => (fst c, match snd c with
                                         | [] => WCon false (fst c) []
                                         | fs => WCtor (fst c) (length fs) []
                                         end) :: en) cases en)
    | IVal x _ _ _ body =>
      v <- match body with
           | inl BIterate => Ok (WIter [])
           | inl (BStr i) => Ok (WOp i [])
           | inr e => seval (sapply fuel) en e
           end ;; Ok ((x, v) :: en)
    | IImport _ => Ok en
    end.
  Fixpoint srun (fuel : nat) (en : senv) (is : list item) : res senv :=
    match is with
    | [] => Ok en
    | i :: r => en' <- srun_item fuel en i ;; srun fuel en' r
    end.
End Sem.

(** The items of a program in the order they run: an imported module runs where it is imported first.
    [seen] are the modules that were imported already. *)
Fixpoint flat_item (seen : list nat) (i : item) {struct i} : list item * list nat :=
  match i with
  | IImport mods =>
    (fix go (seen : list nat) (l : list (nat * list item)) : list item * list nat :=
       match l with
       | [] => ([], seen)
       | (k, is) :: r =>
         if existsb (Nat.eqb k) seen then go seen r else
         let a := (fix gos (seen : list nat) (l : list item) : list item * list nat :=
                     match l with
                     | [] => ([], seen)
                     | j :: r => let b := flat_item seen j in let c := gos (snd b) r in (fst b ++ fst c, snd c)
                     end) (k :: seen) is in
         let b := go (snd a) r in (fst a ++ fst b, snd b)
       end) seen mods
  | _ => ([i], seen)
  end.
Definition flat_items : list nat -> list item -> list item * list nat :=
  fix gos (seen : list nat) (l : list item) : list item * list nat :=
    match l with
    | [] => ([], seen)
    | j :: r => let b := flat_item seen j in let c := gos (snd b) r in (fst b ++ fst c, snd c)
    end.
Definition flat (root : list item) : list item := fst (flat_items [] root).

(** The declared types of a program. *)
Definition is_rec_field (f : option sty) : bool := match f with None => true | Some _ => false end.
Definition types_of (is : list item) : stypes :=
  flat_map (fun i => match i with
                     | ITy x _ cases => [(x, map (fun c => (fst c, map is_rec_field (snd c))) cases)]
                     | _ => []
                     end) is.

(** Running a program: the values of all its items. *)
Definition run_source (o : order) (fuel : nat) (root : list item) : res senv :=
  srun o (types_of (flat root)) fuel [] (flat root).

(** What the earlier stages guarantee about types: a fold does not run over a value that another fold is
    already inside of, and the symbols of type variables are not those of types. *)
Fixpoint plain_folds (e : sexpr) : bool :=
  match e with
  | SName _ _ | SBoolean _ | SNumber _ | SStr _ | SHole _ _ => true
  | SApply a b | SBinary a _ b | SPipe a b => plain_folds a && plain_folds b
  | SLet _ _ v e => plain_folds v && plain_folds e
  | SMatch _ d cases => plain_folds d && forallb (fun c => plain_folds (snd c)) cases
  | SIf c t e => plain_folds c && plain_folds t && plain_folds e
  | SFold t _ b => match t with SFn (SFolded _ _) _ => false | SFn _ _ => true | _ => false end && plain_folds b
  | SLam _ _ _ b => plain_folds b
  | SParen e => plain_folds e
  end.
Fixpoint etvars (e : sexpr) : list sym :=
  match e with
  | SName _ _ | SBoolean _ | SNumber _ | SStr _ | SHole _ _ => []
  | SApply a b | SBinary a _ b | SPipe a b => etvars a ++ etvars b
  | SLet _ vars v e => vars ++ etvars v ++ etvars e
  | SMatch _ d cases => etvars d ++ flat_map (fun c => etvars (snd c)) cases
  | SIf c t e => etvars c ++ etvars t ++ etvars e
  | SFold _ _ b => etvars b
  | SLam _ vars _ b => vars ++ etvars b
  | SParen e => etvars e
  end.
Definition item_tvars (i : item) : list sym :=
  match i with
  | ITy _ ps _ => ps
  | IVal _ vars _ _ (inr e) => vars ++ etvars e
  | IVal _ vars _ _ (inl _) => vars
  | IImport _ => []
  end.
Record typed (root : list item) : Prop := mkTyped {
  ty_folds : forall x vars t ex e, In (IVal x vars t ex (inr e)) (flat root) -> plain_folds e = true;
  ty_apart : forall y i, In i (flat root) -> In y (map fst (types_of (flat root))) -> ~ In y (item_tvars i) }.
