(** The tokens of a printed core program, and that the printed text splits into exactly these. *)
From Verif Require Import Formatter FormatterSpec FormatterProofs Eval Checks ArithProofs PrintProofs PrintDecode Pretty PrettyLex.
From Coq Require Ascii String.
Import String.StringSyntax.
Local Open Scope string_scope.

Inductive kw :=
| Kexport | Klp | Krp | Klet | Kcolon | Keq | Ksemi | Kat | Kcomma | Klb | Krb | Kif | Kthen | Kelse | Klam
| Karrow | Kmatch | Kwith | Kbar | Kend | Krec | Ktrap | KPi | Kbool | Kint | Kstring | Kfor | Kdot
| Ktrue | Kfalse | Kop (o : op) | Kintr (i : intrinsic).
Inductive tok := K (k : kw) | TkName (n : nat) | TkNum (x : N) | TkVar (v : nat) | TkStr (s : list N).

Definition show_kw (k : kw) : text :=
  match k with
  | Kexport => tx "export" | Klp => tx "(" | Krp => tx ")" | Klet => tx "let" | Kcolon => tx ":" | Keq => tx "="
  | Ksemi => tx ";" | Kat => tx "@" | Kcomma => tx "," | Klb => tx "[" | Krb => tx "]" | Kif => tx "if"
  | Kthen => tx "then" | Kelse => tx "else" | Klam => tx "\" | Karrow => tx "->" | Kmatch => tx "match"
  | Kwith => tx "with" | Kbar => tx "|" | Kend => tx "end" | Krec => tx "rec" | Ktrap => tx "#trap" | KPi => tx "Pi"
  | Kbool => tx "bool" | Kint => tx "int" | Kstring => tx "string" | Kfor => tx "for" | Kdot => tx "."
  | Ktrue => tx "true" | Kfalse => tx "false" | Kop o => op_text o | Kintr i => intr_text i
  end.
Definition all_kws : list kw :=
  [Kexport; Klp; Krp; Klet; Kcolon; Keq; Ksemi; Kat; Kcomma; Klb; Krb; Kif; Kthen; Kelse; Klam;
   Karrow; Kmatch; Kwith; Kbar; Kend; Krec; Ktrap; KPi; Kbool; Kint; Kstring; Kfor; Kdot; Ktrue; Kfalse] ++
  map Kop [Add; Subtract; Multiply; Divide; Less; LessEq; Greater; GreaterEq; Equal; NotEqual] ++
  map Kintr [StringLen; StringConcat; StringCharAt; StringSubstring; StringFromChar; IntToString].

Fixpoint text_eqb (a b : text) : bool :=
  match a, b with
  | [], [] => true
  | x :: a, y :: b => (N.eqb x y && text_eqb a b)%bool
  | _, _ => false
  end.
Lemma text_eqb_eq a : forall b, text_eqb a b = true <-> a = b.
Proof.
  induction a as [|x a IH]; intros [|y b]; simpl; split; try discriminate; auto.
  - intros H. apply andb_true_iff in H as [H1 H2]. apply N.eqb_eq in H1. apply IH in H2. congruence.
  - intros [= -> ->]. rewrite N.eqb_refl. apply IH. reflexivity.
Qed.

(** ** Reading a token back *)
Definition digit_b (c : N) : bool := (N.leb 48 c && N.leb c 57)%bool.
Definition all_digits (t : text) : bool := match t with [] => false | _ => forallb digit_b t end.
(** What follows the last underscore. *)
Fixpoint after_us (t : text) : option text :=
  match t with
  | [] => None
  | c :: r => match after_us r with Some x => Some x | None => if N.eqb c 95 then Some r else None end
  end.
Definition read_tok (t : text) : option tok :=
  match t with
  | 34%N :: r => option_map TkStr (unescape (removelast r))
  | _ =>
    match after_us t with
    | Some ds => Some (TkName (N.to_nat (numeral_value ds)))
    | None =>
      if all_digits t then Some (TkNum (numeral_value t))
      else match find (fun k => text_eqb (show_kw k) t) all_kws with
           | Some k => Some (K k)
           | None =>
             match t with
             | c :: r => if (N.eqb c 116 && all_digits r)%bool then Some (TkVar (N.to_nat (numeral_value r))) else None
             | [] => None
             end
           end
    end
  end.

Section Names.
Variable tbl : nat -> text.
Definition show_tok (t : tok) : text :=
  match t with
  | K k => show_kw k
  | TkName n => show_name tbl n
  | TkNum x => int_to_string x
  | TkVar v => tx "t" ++ int_to_string (N.of_nat v)
  | TkStr s => bytes_debug s
  end.

Definition str_ok (s : list N) : Prop := Forall (fun b => (b < 256)%N /\ b <> 92%N /\ b <> 34%N) s.
Definition msg_ok (s : list N) : Prop := Forall (fun b => (32 <= b <= 126)%N /\ b <> 92%N /\ b <> 34%N) s.
Definition tok_ok (t : tok) : Prop :=
  match t with
  | K (Kop Modulo) => False
  | TkStr s => str_ok s
  | _ => True
  end.
(** Source names consist of letters, digits and the like. *)
Definition names_ok : Prop := forall n, Forall (fun c => is_wordc c = true) (tbl n).

Lemma after_us_none t : Forall (fun c => c <> 95%N) t -> after_us t = None.
Proof.
  induction 1 as [|c t Hc _ IH]; simpl; auto. rewrite IH. apply N.eqb_neq in Hc. rewrite Hc. auto.
Qed.
Lemma after_us_some a ds : Forall (fun c => c <> 95%N) ds -> after_us (a ++ 95%N :: ds) = Some ds.
Proof. intros H. induction a as [|c a IH]; simpl; [rewrite after_us_none; auto|rewrite IH; auto]. Qed.
Lemma digits_no_us ds : Forall is_digit ds -> Forall (fun c => c <> 95%N) ds.
Proof. intros H. eapply Forall_impl; [|exact H]. unfold is_digit. intros; lia. Qed.
Lemma all_digits_ok ds : Forall is_digit ds -> ds <> [] -> all_digits ds = true.
Proof.
  intros H Hn. destruct ds as [|d ds]; [congruence|]. unfold all_digits. apply forallb_forall. intros x Hx.
  rewrite Forall_forall in H. apply H in Hx. unfold is_digit in Hx. unfold digit_b.
  apply andb_true_iff; split; apply N.leb_le; lia.
Qed.
Definition not_quote (t : text) : Prop := match t with c :: _ => c <> 34%N | [] => True end.
Lemma read_not_quote t : not_quote t -> read_tok t =
    match after_us t with
    | Some ds => Some (TkName (N.to_nat (numeral_value ds)))
    | None =>
      if all_digits t then Some (TkNum (numeral_value t))
      else match find (fun k => text_eqb (show_kw k) t) all_kws with
           | Some k => Some (K k)
           | None =>
             match t with
             | c :: r => if (N.eqb c 116 && all_digits r)%bool then Some (TkVar (N.to_nat (numeral_value r))) else None
             | [] => None
             end
           end
    end.
Proof.
  intros H. destruct t as [|c t]; [reflexivity|]. unfold read_tok. simpl in H.
  destruct c as [|q]; [reflexivity|].
  do 7 (try destruct q as [q|q|]; try reflexivity). congruence.
Qed.
Lemma str_ok_unescape s : str_ok s -> unescape (flat_map show_byte s) = Some s.
Proof. intros H. apply show_decodes. eapply Forall_impl; [|exact H]. simpl; tauto. Qed.

Lemma kw_reads : forallb (fun k => match read_tok (show_kw k) with Some (K k') => text_eqb (show_kw k) (show_kw k') | _ => false end) all_kws = true.
Proof. vm_compute. reflexivity. Qed.
Lemma read_show t : names_ok -> tok_ok t -> read_tok (show_tok t) = Some t.
Proof.
  intros HN H. destruct t as [k|n|x|v|s].
  - destruct k as [| | | | | | | | | | | | | | | | | | | | | | | | | | | | | |o|i]; try (vm_compute; reflexivity).
    + destruct o; try (vm_compute; reflexivity). destruct H.
    + destruct i; vm_compute; reflexivity.
  - simpl show_tok. unfold show_name.
    destruct (int_to_string_spec (N.of_nat n)) as (D & V & Ne & _).
    rewrite read_not_quote.
    + change (tbl n ++ tx "_" ++ int_to_string (N.of_nat n)) with (tbl n ++ 95%N :: int_to_string (N.of_nat n)).
      rewrite after_us_some by (apply digits_no_us; auto). rewrite V, Nat2N.id. reflexivity.
    + specialize (HN n). destruct (tbl n) as [|c r]; simpl; [discriminate|].
      inversion HN as [|? ? Hc _]. intros ->. discriminate.
  - simpl show_tok. destruct (int_to_string_spec x) as (D & V & Ne & _). rewrite read_not_quote.
    + rewrite after_us_none by (apply digits_no_us; auto). rewrite all_digits_ok by auto. rewrite V. reflexivity.
    + destruct (int_to_string x) as [|c r]; [congruence|]. simpl. inversion D as [|? ? Hc _]. unfold is_digit in Hc. lia.
  - simpl show_tok. destruct (int_to_string_spec (N.of_nat v)) as (D & V & Ne & _).
    change (tx "t" ++ int_to_string (N.of_nat v)) with (116%N :: int_to_string (N.of_nat v)).
    rewrite read_not_quote by (simpl; discriminate).
    rewrite after_us_none by (constructor; [discriminate|apply digits_no_us; auto]).
    replace (all_digits (116%N :: int_to_string (N.of_nat v))) with false by reflexivity.
    destruct (find _ all_kws) as [k|] eqn:E.
    + exfalso. apply find_some in E as [Hin E]. apply text_eqb_eq in E.
      destruct (int_to_string (N.of_nat v)) as [|c r]; [congruence|]. inversion D as [|? ? Hc _]; subst.
      unfold is_digit in Hc. assert (Hall : forallb (fun k => match show_kw k with 116%N :: c :: _ => negb (digit_b c) | _ => true end) all_kws = true) by (vm_compute; reflexivity).
      rewrite forallb_forall in Hall. specialize (Hall _ Hin). rewrite E in Hall. unfold digit_b in Hall.
      apply negb_true_iff, andb_false_iff in Hall as [Hall|Hall]; apply N.leb_gt in Hall; lia.
    + rewrite (@all_digits_ok _ D Ne), N.eqb_refl. simpl. rewrite V, Nat2N.id. reflexivity.
  - simpl show_tok. unfold bytes_debug. cbn [read_tok].
    rewrite removelast_app by discriminate. simpl removelast. rewrite app_nil_r.
    rewrite str_ok_unescape by auto. reflexivity.
Qed.

(** ** The tokens of each construct *)
Definition tparens (b : bool) (ts : list tok) : list tok := if b then K Klp :: ts ++ [K Krp] else ts.
Definition tcommas (l : list (list tok)) : list tok :=
  match l with [] => [] | x :: r => x ++ flat_map (fun y => K Kcomma :: y) r end.
Fixpoint tk_ty (t : ty) (p : prec) : list tok :=
  tparens (prec_lt (ty_prec t) p)
    match t with
    | TBool => [K Kbool]
    | TInt => [K Kint]
    | TString => [K Kstring]
    | TVar v => [TkVar v]
    | TNamed n args => TkName n :: flat_map (fun t => tk_ty t PAtom) args
    | TFn ps out => K Klp :: tcommas (map (fun t => tk_ty t PMin) ps) ++ K Krp :: K Karrow :: tk_ty out PMin
    | TAbs v t => K Kfor :: TkVar v :: K Kdot :: tk_ty t PMin
    end.
Definition tk_param (p : name * ty) : list tok := TkName (fst p) :: K Kcolon :: tk_ty (snd p) PMin.
Fixpoint tk_expr (e : expr) (p : prec) : list tok :=
  tparens (prec_lt (expr_prec e) p)
    match e with
    | EBool true => [K Ktrue]
    | EBool false => [K Kfalse]
    | EInt x => [TkNum x]
    | EString s => [TkStr s]
    | EName n => [TkName n]
    | ECall f args => tk_expr f PApply ++ K Klp :: tcommas (map (fun a => tk_expr a PMin) args) ++ [K Krp]
    | EIntr i args => K (Kintr i) :: K Klp :: tcommas (map (fun a => tk_expr a PMin) args) ++ [K Krp]
    | EIf a b c => K Kif :: tk_expr a PApply ++ K Kthen :: tk_expr b PMin ++ K Kelse :: tk_expr c PMin
    | EOp a o b => tk_expr a (prec_next (op_prec o)) ++ K (Kop o) :: tk_expr b (prec_next (op_prec o))
    | ELam ps b => K Klam :: K Klp :: tcommas (map tk_param ps) ++ K Krp :: K Karrow :: tk_expr b PMin
    | EMatch d bs =>
      K Kmatch :: tk_expr d PApply ++ K Kwith ::
      flat_map (fun br => K Kbar :: K Kat :: TkName (fst (fst br)) :: map TkName (snd (fst br)) ++
                          K Karrow :: tk_expr (snd br) PMin) bs ++ [K Kend]
    | EConstruct c tys xs =>
      K Kat :: TkName c ::
      match tys with [] => [] | _ => K Klb :: tcommas (map (fun t => tk_ty t PMin) tys) ++ [K Krb] end ++
      K Klp :: tcommas (map (fun a => tk_expr a PMin) xs) ++ [K Krp]
    | ELet x v e => K Klet :: TkName x :: K Keq :: tk_expr v PMin ++ K Ksemi :: tk_expr e PMin
    | ELetRec x t v e =>
      K Klet :: K Krec :: TkName x :: K Kcolon :: tk_ty t PMin ++ K Keq :: tk_expr v PMin ++ K Ksemi :: tk_expr e PMin
    | ETrap msg t => K Ktrap :: K Klp :: TkStr msg :: K Kcomma :: tk_ty t PMin ++ [K Krp]
    | EPi v e => K KPi :: TkVar v :: K Karrow :: tk_expr e PMin
    | EPiApp e t => tk_expr e PApply ++ K Klb :: tk_ty t PMin ++ [K Krb]
    end.
Definition tk_def (d : valdef) : list tok :=
  match vd_export d with Some x => [K Kexport; K Klp; TkStr x; K Krp] | None => [] end ++
  K Klet :: TkName (vd_name d) :: K Kcolon :: tk_ty (vd_ty d) PMin ++ K Keq :: tk_expr (vd_value d) PMin ++ [K Ksemi].

(** Programs whose printed text is readable: no remainder operator, strings without quote or backslash, and
    no operator expression as the function of a call or type application. *)
Definition is_op (e : expr) : bool := match e with EOp _ _ _ => true | _ => false end.
Fixpoint readable (e : expr) : Prop :=
  match e with
  | EBool _ | EInt _ | EName _ => True
  | EString s => str_ok s
  | ECall f args => is_op f = false /\ readable f /\ fold_right and True (map readable args)
  | EIntr _ args => fold_right and True (map readable args)
  | EIf a b c => readable a /\ readable b /\ readable c
  | EOp a o b => o <> Modulo /\ readable a /\ readable b
  | ELam _ b => readable b
  | EMatch d bs => readable d /\ fold_right and True (map (fun br => readable (snd br)) bs)
  | EConstruct _ _ xs => fold_right and True (map readable xs)
  | ELet _ v e => readable v /\ readable e
  | ELetRec _ _ v e => readable v /\ readable e
  | ETrap m _ => msg_ok m
  | EPi _ e => readable e
  | EPiApp e _ => is_op e = false /\ readable e
  end.

Lemma msg_debug m : msg_ok m -> str_debug m = bytes_debug m.
Proof.
  intros H. unfold str_debug, bytes_debug. f_equal. f_equal. induction H as [|c m [A [B C]] _ IH]; simpl; auto.
  rewrite IH. f_equal. unfold str_debug_char, show_byte.
  assert (((32 <=? c) && (c <=? 126))%N = true) as ->. { apply andb_true_iff; split; apply N.leb_le; lia. }
  repeat match goal with |- context [(c =? ?k)%N] => replace (c =? k)%N with false by (symmetry; apply N.eqb_neq; lia) end.
  reflexivity.
Qed.
Lemma msg_str m : msg_ok m -> str_ok m.
Proof. intros H. eapply Forall_impl; [|exact H]. simpl. intros; lia. Qed.
Lemma show_byte_no_quote b : (b < 256)%N -> b <> 34%N -> Forall (fun c => c <> 34%N) (show_byte b).
Proof.
  intros Hb Hn.
  assert (HF : forallb (fun b => (N.eqb b 34 || forallb (fun c => negb (N.eqb c 34)) (show_byte b))%bool) all_bytes = true)
    by (vm_compute; reflexivity).
  rewrite forallb_forall in HF. specialize (HF b (byte_in Hb)). apply N.eqb_neq in Hn. rewrite Hn in HF. simpl in HF.
  apply Forall_forall. intros c Hc. rewrite forallb_forall in HF. specialize (HF c Hc).
  apply negb_true_iff, N.eqb_neq in HF. exact HF.
Qed.
Lemma str_no_quote s : str_ok s -> Forall (fun c => c <> 34%N) (flat_map show_byte s).
Proof.
  induction 1 as [|b s [A [_ B]] _ IH]; simpl; auto. apply Forall_app. split; auto. apply show_byte_no_quote; auto.
Qed.

(** ** The layout of each construct splits into its tokens *)
Definition Goodt (cs : list call) (ts : list tok) : Prop := Good cs (map show_tok ts).
Lemma Gt_app a b La Lb : Goodt a La -> Goodt b Lb -> Goodt (a ++ b) (La ++ Lb).
Proof. unfold Goodt. rewrite map_app. apply Good_app. Qed.
Lemma Gt_cons c b k Lb : Goodt [c] [k] -> Goodt b Lb -> Goodt (c :: b) (k :: Lb).
Proof. apply (@Gt_app [c] b [k] Lb). Qed.
Lemma Gt_quiet c b L : Good [c] [] -> Goodt b L -> Goodt (c :: b) L.
Proof. apply Good_quiet. Qed.
Lemma Gt_nil : Goodt [] [].
Proof. apply Good_nil. Qed.
Lemma Gt_two c b k1 k2 Lb : Goodt [c] [k1; k2] -> Goodt b Lb -> Goodt (c :: b) (k1 :: k2 :: Lb).
Proof. apply (@Gt_app [c] b [k1; k2] Lb). Qed.

Definition plain_word (t : text) : bool := match t with [] => false | _ => forallb is_wordc t end.
Lemma Gt_kw k : plain_word (show_kw k) = true -> Goodt [AddToken (show_kw k)] [K k].
Proof.
  intros H. apply Good_token. apply splits_word.
  - intros E. rewrite E in H. discriminate.
  - apply Forall_forall. unfold plain_word in H. destruct (show_kw k) as [|c t]; [discriminate|].
    rewrite forallb_forall in H. exact H.
Qed.
Lemma Gt_punct c s k : show_kw k = [c] -> is_punct c = true -> Goodt [AddSticky [c] s] [K k].
Proof.
  intros E H. unfold Goodt. simpl. rewrite E. apply Good_sticky with (closed := true); simpl; auto.
  intros ls. exists ([c] :: ls), []. split; auto. simpl. rewrite (punct_not_space _ H), H. reflexivity.
Qed.
Lemma Gt_name n : names_ok -> Goodt (wr_name tbl n) [TkName n].
Proof.
  intros HN. apply Good_token. apply splits_word; unfold show_name.
  - intros E. apply app_eq_nil in E as [_ E]. discriminate.
  - apply Forall_app. split; [apply HN|]. constructor; [reflexivity|]. apply digits_wordc, int_to_string_spec.
Qed.
Lemma Gt_ctor n : names_ok -> Goodt (wr_ctor tbl n) [K Kat; TkName n].
Proof. intros HN. apply Gt_cons; [apply Gt_punct; reflexivity|apply Gt_name; auto]. Qed.
Lemma Gt_num x : Goodt (wr_number x) [TkNum x].
Proof. apply Good_number. Qed.
Lemma Gt_tyvar v : Goodt (wr_tyvar v) [TkVar v].
Proof. apply Good_tyvar. Qed.
Lemma Gt_str s : str_ok s -> Goodt [AddToken (bytes_debug s)] [TkStr s].
Proof.
  intros H. apply Good_token. eapply splits_weaken. apply splits_quoted. apply str_no_quote; auto.
Qed.
Lemma Gt_parens b cs ts : Goodt cs ts -> Goodt (parens b cs) (tparens b ts).
Proof.
  intros H. destruct b; auto. simpl. apply Gt_cons; [apply Gt_punct; reflexivity|]. apply Gt_app; auto.
  apply Gt_punct; reflexivity.
Qed.
Lemma Gt_flat {A} (f : A -> list call) g l : Forall (fun x => Goodt (f x) (g x)) l ->
  Goodt (flat_map f l) (flat_map g l).
Proof. induction 1; simpl; [apply Gt_nil|apply Gt_app; auto]. Qed.
Lemma Gt_commas {A} (f : A -> list call) g l : Forall (fun x => Goodt (f x) (g x)) l ->
  Goodt (commas (map f l)) (tcommas (map g l)).
Proof.
  intros H. destruct H as [|x l Hx Hl]; simpl; [apply Gt_nil|]. apply Gt_app; auto.
  induction Hl as [|y l Hy Hl IH]; simpl; [apply Gt_nil|]. apply Gt_cons; [apply Gt_punct; reflexivity|].
  apply Gt_app; auto.
Qed.
Ltac kwd := match goal with |- Goodt [AddToken _] [K ?k] => apply (@Gt_kw k); vm_compute; reflexivity end.
Ltac pun := apply Gt_punct; reflexivity.
Ltac glued := apply Good_sticky with (closed := true);
  [intros ls; eexists _, []; split; [vm_compute; reflexivity|split; auto]|discriminate|auto].

Lemma Gt_ty t : names_ok -> forall p, Goodt (wr_ty tbl t p) (tk_ty t p).
Proof.
  intros HN. induction t as [| | |v|n args IH|ps o IH IHo|v t IH] using ty_ind'; intros p; cbn [wr_ty tk_ty]; apply Gt_parens.
  - kwd.
  - kwd.
  - kwd.
  - apply Gt_tyvar.
  - apply (@Gt_app _ _ [TkName n]); [apply Gt_name; auto|]. apply Gt_flat. eapply Forall_impl; [|exact IH]. auto.
  - apply Gt_cons; [pun|]. apply Gt_app.
    + apply Gt_commas. eapply Forall_impl; [|exact IH]. auto.
    + apply Gt_cons; [pun|]. apply Gt_cons; [kwd|]. auto.
  - apply Gt_cons; [kwd|]. apply (@Gt_app _ _ [TkVar v]); [apply Gt_tyvar|]. apply Gt_cons; [kwd|]. auto.
Qed.
Lemma Gt_param p : names_ok -> Goodt (wr_param tbl p) (tk_param p).
Proof.
  intros HN. apply (@Gt_app _ _ [TkName (fst p)]); [apply Gt_name; auto|]. apply Gt_cons; [kwd|]. apply Gt_ty; auto.
Qed.
Lemma and_Forall {A} (P : A -> Prop) l : fold_right and True (map P l) <-> Forall P l.
Proof. induction l; simpl; split; intros H; auto; [constructor; tauto|inversion H; tauto]. Qed.
Lemma Gt_args l : Forall (fun e => readable e -> forall p, Goodt (wr_expr tbl e p) (tk_expr e p)) l ->
  fold_right and True (map readable l) ->
  Goodt (commas (map (fun a => wr_expr tbl a PMin) l) ++ [AddSticky (tx ")") Prev])
        (tcommas (map (fun a => tk_expr a PMin) l) ++ [K Krp]).
Proof.
  intros IH R. apply Gt_app; [|pun]. apply Gt_commas. apply and_Forall in R.
  rewrite Forall_forall in *. auto.
Qed.
Lemma Gt_expr e : names_ok -> readable e -> forall p, Goodt (wr_expr tbl e p) (tk_expr e p).
Proof.
  intros HN. induction e using expr_ind'; intros R q;
    (match goal with |- Goodt (wr_expr _ ?e _) _ =>
       assert (Hl : forall X Y, Goodt X Y -> Goodt ((if is_let e then [AddNewline] else []) ++ X) Y)
         by (intros X Y HXY; destruct (is_let e); [apply Gt_quiet; [apply Good_newline|auto]|auto]) end);
    cbn [wr_expr tk_expr]; apply Gt_quiet; try apply Good_start; apply Hl; clear Hl;
    rewrite <- (app_nil_r (tparens _ _)); (apply Gt_app; [apply Gt_parens|apply Good_finish]);
    cbn [readable] in R.
  - destruct b; kwd.
  - apply Gt_num.
  - apply Gt_str; auto.
  - apply Gt_name; auto.
  - destruct R as (_ & R1 & R2). apply Gt_app; auto. apply Gt_cons; [pun|]. apply Gt_args; auto.
  - destruct R as (R1 & R2 & R3). apply Gt_cons; [kwd|]. apply Gt_app; auto. apply Gt_cons; [kwd|].
    apply Gt_quiet; [apply Good_large|]. apply Gt_app; auto. apply Gt_quiet; [apply Good_large|]. apply Gt_cons; [kwd|].
    apply Gt_quiet; [apply Good_large|]. auto.
  - destruct R as (_ & R1 & R2). apply Gt_app; auto. apply Gt_cons; auto. destruct o; kwd.
  - apply Gt_cons; [destruct i; kwd|]. apply Gt_cons; [pun|]. apply Gt_args; auto.
  - apply Gt_two; [glued|]. apply Gt_app.
    + apply Gt_commas. apply Forall_forall. intros. apply Gt_param; auto.
    + apply Gt_cons; [pun|]. apply Gt_cons; [kwd|].
      destruct (is_lam e); simpl; [|apply Gt_quiet; [apply Good_large|]]; auto.
  - destruct R as (R1 & R2). apply Gt_cons; [kwd|]. apply Gt_app; auto. apply Gt_cons; [kwd|]. apply Gt_app.
    + apply Gt_flat. apply and_Forall in R2. rewrite Forall_forall in *. intros br Hbr.
      apply Gt_quiet; [apply Good_start|]. apply Gt_quiet; [apply Good_newline|]. apply Gt_cons; [kwd|].
      apply (@Gt_app _ _ [K Kat; TkName (fst (fst br))]); [apply Gt_ctor; auto|].
      apply Gt_app.
      * assert (E : map TkName (snd (fst br)) = flat_map (fun n => [TkName n]) (snd (fst br)))
          by (induction (snd (fst br)); simpl; congruence).
        rewrite E. apply Gt_flat. apply Forall_forall. intros. apply Gt_name; auto.
      * apply Gt_cons; [kwd|]. rewrite <- (app_nil_r (tk_expr _ _)). apply Gt_app; [auto|apply Good_finish].
    + apply Gt_quiet; [apply Good_newline|]. kwd.
  - apply (@Gt_app _ _ [K Kat; TkName c]); [apply Gt_ctor; auto|]. apply Gt_app.
    + destruct tys as [|t tys]; [apply Gt_nil|]. apply Gt_cons; [pun|]. apply Gt_app; [|pun].
      apply Gt_commas. apply Forall_forall. intros. apply Gt_ty; auto.
    + apply Gt_cons; [pun|]. apply Gt_args; auto.
  - destruct R as (R1 & R2). apply Gt_cons; [kwd|]. apply (@Gt_app _ _ [TkName n]); [apply Gt_name; auto|].
    apply Gt_quiet; [apply Good_start|]. apply Gt_cons; [kwd|]. apply Gt_app; auto. apply Gt_cons; [pun|].
    apply Gt_quiet; [apply Good_finish|]. apply Gt_quiet; [apply Good_newline|]. auto.
  - destruct R as (R1 & R2). apply Gt_cons; [kwd|]. apply Gt_cons; [kwd|].
    apply (@Gt_app _ _ [TkName n]); [apply Gt_name; auto|]. apply Gt_cons; [kwd|]. apply Gt_app; [apply Gt_ty; auto|].
    apply Gt_quiet; [apply Good_start|]. apply Gt_cons; [kwd|]. apply Gt_app; auto. apply Gt_cons; [pun|].
    apply Gt_quiet; [apply Good_finish|]. apply Gt_quiet; [apply Good_newline|]. auto.
  - apply Gt_cons; [kwd|]. apply (@Gt_app _ _ [TkVar v]); [apply Gt_tyvar|]. apply Gt_cons; [kwd|]. auto.
  - destruct R as (_ & R). apply Gt_app; auto. apply Gt_cons; [pun|]. apply Gt_app; [apply Gt_ty; auto|pun].
  - apply Gt_two; [glued|]. rewrite msg_debug by auto. apply Gt_cons; [apply Gt_str, msg_str; auto|].
    apply Gt_cons; [pun|]. apply Gt_app; [apply Gt_ty; auto|pun].
Qed.
Definition def_ok (d : valdef) : Prop :=
  match vd_export d with Some x => msg_ok x | None => True end /\ readable (vd_value d).
Lemma Gt_def d : names_ok -> def_ok d -> Goodt (wr_def tbl d) (tk_def d).
Proof.
  intros HN [Hx R]. unfold wr_def, tk_def. apply Gt_quiet; [apply Good_start|]. apply Gt_app.
  - destruct (vd_export d) as [x|]; [|apply Gt_nil]. apply Gt_two; [glued|]. rewrite msg_debug by auto.
    apply Gt_cons; [apply Gt_str, msg_str; auto|]. pun.
  - apply Gt_cons; [kwd|]. apply (@Gt_app _ _ [TkName (vd_name d)]); [apply Gt_name; auto|]. apply Gt_cons; [kwd|].
    apply Gt_app; [apply Gt_ty; auto|]. apply Gt_cons; [kwd|]. apply Gt_app; [apply Gt_expr; auto|].
    apply Gt_cons; [pun|]. apply Gt_quiet; [apply Good_newline|]. apply Good_finish.
Qed.

(** The whole program. *)
Lemma pretty_content ds : names_ok -> Forall def_ok ds -> forall pre ls cur,
  (pre = [] -> ls = [] /\ cur = []) -> scans pre ([], Word []) = (ls, Word cur) ->
  exists out ls' cur', pretty_defs tbl pre ds = Some out /\ scans out ([], Word []) = (ls', Word cur') /\
    fl cur' ++ ls' = rev (map show_tok (flat_map tk_def ds)) ++ fl cur ++ ls.
Proof.
  intros HN H. induction H as [|d ds Hd Hds IH]; intros pre ls cur H0 Hs; cbn [pretty_defs].
  - exists pre, ls, cur. auto.
  - destruct (format_laid (wr_def tbl d)) as (t & -> & L).
    rewrite <- (app_nil_r (wr_def tbl d)) in L.
    set (pre' := match pre with [] => [] | _ => pre ++ [nl] end).
    assert (S1 : exists ls1, scans pre' ([], Word []) = (ls1, Word []) /\ ls1 = fl cur ++ ls).
    { destruct pre as [|c pre]; simpl pre'.
      - exists []. split; auto. destruct (H0 eq_refl) as [-> ->]. reflexivity.
      - exists (fl cur ++ ls). split; auto. unfold pre'. rewrite scans_app, Hs. reflexivity. }
    destruct S1 as (ls1 & S1 & E1).
    destruct (@Gt_def d HN Hd None false [] t (ls1, Word []) L) as (o1 & o2 & p' & b' & -> & L2 & R & C).
    { exists ls1, []. auto. }
    inversion L2; subst o2. rewrite app_nil_r.
    destruct R as (ls2 & cur2 & E2 & _ & _).
    destruct (IH (pre' ++ o1) ls2 cur2) as (out & ls' & cur' & P & Sc & Co).
    + intros E. exfalso. apply app_eq_nil in E as [_ ->]. cbn [scans fold_left content fl app] in C.
      apply (f_equal (@length _)) in C. rewrite app_length, rev_length, map_length in C.
      unfold tk_def in C. rewrite app_length in C. simpl in C. lia.
    + rewrite scans_app, S1, E2. reflexivity.
    + exists out, ls', cur'. split; auto. split; auto. rewrite Co. cbn [flat_map]. rewrite map_app, rev_app_distr, <- app_assoc.
      f_equal. rewrite E2 in C. cbn [content fl app] in C. rewrite C, E1. reflexivity.
Qed.
Lemma pretty_tokens p : names_ok -> Forall def_ok (p_defs p) ->
  exists out, pretty_print tbl p = Some out /\ tokens_of out = map show_tok (flat_map tk_def (p_defs p)).
Proof.
  intros HN H. destruct (@pretty_content (p_defs p) HN H [] [] []) as (out & ls & cur & P & S & C); auto.
  exists out. split; auto. unfold tokens_of. rewrite S. cbn [content]. rewrite C. cbn [fl app].
  rewrite app_nil_r, rev_involutive. reflexivity.
Qed.
End Names.

Lemma show_toks_inj tbl tbl' a b : names_ok tbl -> names_ok tbl' -> Forall tok_ok a -> Forall tok_ok b ->
  map (show_tok tbl) a = map (show_tok tbl') b -> a = b.
Proof.
  intros HN HN'. revert b. induction a as [|x a IH]; intros [|y b] Ha Hb E; simpl in E; try discriminate; auto.
  inversion Ha; inversion Hb; subst. injection E as E1 E2.
  pose proof (@read_show tbl x HN ltac:(auto)) as R1. pose proof (@read_show tbl' y HN' ltac:(auto)) as R2.
  rewrite E1 in R1. rewrite R1 in R2. injection R2 as ->. f_equal. apply IH; auto.
Qed.
