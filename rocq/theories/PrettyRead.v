(** A reader for the tokens of a printed core program, and that it recovers the program. *)
From Verif Require Import Formatter FormatterSpec FormatterProofs Eval Checks Pretty PrettyLex PrettyTok.

(** ** Types *)
Fixpoint p_ty (n : nat) (ts : list tok) {struct n} : option (ty * list tok) :=
  match n with
  | 0 => None
  | S n =>
    match ts with
    | K Kbool :: r => Some (TBool, r)
    | K Kint :: r => Some (TInt, r)
    | K Kstring :: r => Some (TString, r)
    | TkVar v :: r => Some (TVar v, r)
    | TkName m :: r => match p_atoms n r with Some (l, r') => Some (TNamed m l, r') | None => None end
    | K Klp :: r =>
      match p_tys n r with
      | Some (ps, K Krp :: K Karrow :: r') =>
        match p_ty n r' with Some (o, r'') => Some (TFn ps o, r'') | None => None end
      | _ => None
      end
    | K Kfor :: TkVar v :: K Kdot :: r => match p_ty n r with Some (t, r') => Some (TAbs v t, r') | None => None end
    | _ => None
    end
  end
with p_atoms (n : nat) (ts : list tok) {struct n} : option (list ty * list tok) :=
  match n with
  | 0 => None
  | S n =>
    let more t r := match p_atoms n r with Some (l, r') => Some (t :: l, r') | None => None end in
    match ts with
    | K Kbool :: r => more TBool r
    | K Kint :: r => more TInt r
    | K Kstring :: r => more TString r
    | TkVar v :: r => more (TVar v) r
    | K Klp :: r => match p_ty n r with Some (t, K Krp :: r') => more t r' | _ => None end
    | _ => Some ([], ts)
    end
  end
with p_tys (n : nat) (ts : list tok) {struct n} : option (list ty * list tok) :=
  match n with
  | 0 => None
  | S n =>
    match ts with
    | K Krp :: _ => Some ([], ts)
    | _ => match p_ty n ts with
           | Some (t, r) => match p_more n r with Some (l, r') => Some (t :: l, r') | None => None end
           | None => None
           end
    end
  end
with p_more (n : nat) (ts : list tok) {struct n} : option (list ty * list tok) :=
  match n with
  | 0 => None
  | S n =>
    match ts with
    | K Kcomma :: r =>
      match p_ty n r with
      | Some (t, r) => match p_more n r with Some (l, r') => Some (t :: l, r') | None => None end
      | None => None
      end
    | _ => Some ([], ts)
    end
  end.

(** With enough fuel [f] answers [r]. *)
Definition ev {A} (f : nat -> option A) (r : A) : Prop := exists N, forall n, N <= n -> f n = Some r.
Ltac evi N := exists (S N); let n := fresh "n" in let H := fresh "Hn" in intros [|n] H; [lia|].

Definition ty_follow (k : list tok) : Prop :=
  match k with K Kbool :: _ | K Kint :: _ | K Kstring :: _ | TkVar _ :: _ | K Klp :: _ => False | _ => True end.
Definition no_comma (k : list tok) : Prop := match k with K Kcomma :: _ => False | _ => True end.

Lemma tk_ty_at t p : tk_ty t p = tparens (prec_lt (ty_prec t) p) (tk_ty t PMin).
Proof. destruct t; reflexivity. Qed.
Lemma more_stop n k : no_comma k -> p_more (S n) k = Some ([], k).
Proof. destruct k as [|[[]| | | |] ?]; simpl; tauto. Qed.
Lemma read_more l k : Forall (fun t => forall k, ty_follow k -> ev (fun n => p_ty n (tk_ty t PMin ++ k)) (t, k)) l ->
  ty_follow k -> no_comma k ->
  ev (fun n => p_more n (flat_map (fun y => K Kcomma :: y) (map (fun t => tk_ty t PMin) l) ++ k)) (l, k).
Proof.
  intros H F C. induction H as [|t l Ht _ [N IH]]; simpl.
  - evi 0. apply more_stop; auto.
  - destruct (Ht (flat_map (fun y => K Kcomma :: y) (map (fun t => tk_ty t PMin) l) ++ k)) as [N1 H1].
    { destruct l; simpl; auto. }
    evi (Nat.max N N1). cbn [p_more]. rewrite <- app_assoc, H1, IH by lia. reflexivity.
Qed.
Lemma ty_head_not_rp t p k : exists a r, tk_ty t p ++ k = a :: r /\ a <> K Krp.
Proof. destruct t, p; simpl; eexists _, _; (split; [reflexivity|discriminate]). Qed.
Lemma p_tys_cons n ts : (exists a r, ts = a :: r /\ a <> K Krp) -> p_tys (S n) ts =
  match p_ty n ts with
  | Some (t, r) => match p_more n r with Some (l, r') => Some (t :: l, r') | None => None end
  | None => None
  end.
Proof. intros (a & r & -> & H). destruct a as [[]| | | |]; try reflexivity. congruence. Qed.
Lemma read_tys l k : Forall (fun t => forall k, ty_follow k -> ev (fun n => p_ty n (tk_ty t PMin ++ k)) (t, k)) l ->
  ty_follow k -> no_comma k -> (l = [] -> exists r, k = K Krp :: r) ->
  ev (fun n => p_tys n (tcommas (map (fun t => tk_ty t PMin) l) ++ k)) (l, k).
Proof.
  intros H F C E. destruct H as [|t l Ht Hl]; simpl.
  - destruct (E eq_refl) as [r ->]. evi 0. reflexivity.
  - destruct (@read_more l k Hl F C) as [N IH].
    destruct (Ht (flat_map (fun y => K Kcomma :: y) (map (fun t => tk_ty t PMin) l) ++ k)) as [N1 H1].
    { destruct l; simpl; auto. }
    rewrite <- app_assoc. evi (Nat.max N N1). rewrite p_tys_cons by apply ty_head_not_rp. rewrite H1, IH by lia. reflexivity.
Qed.
Lemma atoms_stop n k : ty_follow k -> p_atoms (S n) k = Some ([], k).
Proof. destruct k as [|[[]| | | |] ?]; simpl; tauto. Qed.
Lemma read_atoms l k : Forall (fun t => forall k, ty_follow k -> ev (fun n => p_ty n (tk_ty t PMin ++ k)) (t, k)) l ->
  ty_follow k -> ev (fun n => p_atoms n (flat_map (fun t => tk_ty t PAtom) l ++ k)) (l, k).
Proof.
  intros H F. induction H as [|t l Ht _ [N IH]]; cbn [flat_map app].
  - evi 0. apply atoms_stop; auto.
  - rewrite <- app_assoc. rewrite tk_ty_at. destruct (prec_lt (ty_prec t) PAtom) eqn:E.
    + cbn [tparens app]. rewrite <- app_assoc.
      destruct (Ht ([K Krp] ++ flat_map (fun t => tk_ty t PAtom) l ++ k)) as [N1 H1]; [exact I|].
      evi (Nat.max N N1). cbn [p_atoms]. rewrite H1 by lia. cbn [app]. rewrite IH by lia. reflexivity.
    + evi N. destruct t; try discriminate E; cbn [tparens tk_ty prec_lt app p_atoms];
        (change (prec_lt _ PMin) with false; cbn [tparens app p_atoms]); rewrite IH by lia; reflexivity.
Qed.
Lemma read_ty t : forall k, ty_follow k -> ev (fun n => p_ty n (tk_ty t PMin ++ k)) (t, k).
Proof.
  induction t as [| | |v|m args IH|ps o IH IHo|v t IH] using ty_ind'; intros k F; cbn [tk_ty];
    change (prec_lt _ PMin) with false; cbn [tparens app].
  - evi 0; reflexivity.
  - evi 0; reflexivity.
  - evi 0; reflexivity.
  - evi 0; reflexivity.
  - destruct (@read_atoms args k IH F) as [N H]. evi N. cbn [p_ty]. rewrite H by lia. reflexivity.
  - rewrite <- app_assoc. cbn [app].
    destruct (@read_tys ps (K Krp :: K Karrow :: tk_ty o PMin ++ k) IH I I) as [N H]; [eauto|].
    destruct (IHo k F) as [N1 H1]. evi (Nat.max N N1). cbn [p_ty]. rewrite H, H1 by lia. reflexivity.
  - destruct (IH k F) as [N1 H1]. evi N1. cbn [p_ty]. rewrite H1 by lia. reflexivity.
Qed.

(** ** Expressions *)
Definition prec_eqb (a b : prec) : bool := prec_num a =? prec_num b.
Fixpoint take_names (ts : list tok) : list nat * list tok :=
  match ts with
  | TkName x :: r => let (l, r') := take_names r in (x :: l, r')
  | _ => ([], ts)
  end.
Fixpoint p_params (n : nat) (ts : list tok) {struct n} : option (list (nat * ty) * list tok) :=
  match n with
  | 0 => None
  | S n =>
    match ts with
    | TkName x :: K Kcolon :: r | K Kcomma :: TkName x :: K Kcolon :: r =>
      match p_ty n r with
      | Some (t, r') => match p_params n r' with Some (l, r'') => Some ((x, t) :: l, r'') | None => None end
      | None => None
      end
    | _ => Some ([], ts)
    end
  end.
Fixpoint p_lvl (n : nat) (p : prec) (ts : list tok) {struct n} : option (expr * list tok) :=
  match n with
  | 0 => None
  | S n =>
    match p with
    | PAtom => p_post n ts
    | _ =>
      match p_lvl n (prec_next p) ts with
      | Some (a, K (Kop o) :: r) =>
        if prec_eqb (op_prec o) p
        then match p_lvl n (prec_next p) r with Some (b, r') => Some (EOp a o b, r') | None => None end
        else Some (a, K (Kop o) :: r)
      | x => x
      end
    end
  end
with p_post (n : nat) (ts : list tok) {struct n} : option (expr * list tok) :=
  match n with
  | 0 => None
  | S n => match p_head n ts with Some (h, r) => p_loop n h r | None => None end
  end
with p_loop (n : nat) (h : expr) (ts : list tok) {struct n} : option (expr * list tok) :=
  match n with
  | 0 => None
  | S n =>
    match ts with
    | K Klp :: r => match p_args n r with Some (l, K Krp :: r') => p_loop n (ECall h l) r' | _ => None end
    | K Klb :: r => match p_ty n r with Some (t, K Krb :: r') => p_loop n (EPiApp h t) r' | _ => None end
    | _ => Some (h, ts)
    end
  end
with p_head (n : nat) (ts : list tok) {struct n} : option (expr * list tok) :=
  match n with
  | 0 => None
  | S n =>
    match ts with
    | K Ktrue :: r => Some (EBool true, r)
    | K Kfalse :: r => Some (EBool false, r)
    | TkNum x :: r => Some (EInt x, r)
    | TkStr s :: r => Some (EString s, r)
    | TkName m :: r => Some (EName m, r)
    | K Klp :: r => match p_lvl n PMin r with Some (e, K Krp :: r') => Some (e, r') | _ => None end
    | K (Kintr i) :: K Klp :: r => match p_args n r with Some (l, K Krp :: r') => Some (EIntr i l, r') | _ => None end
    | K Kat :: TkName c :: K Klb :: r =>
      match p_tys n r with
      | Some (tys, K Krb :: K Klp :: r') =>
        match p_args n r' with Some (l, K Krp :: r'') => Some (EConstruct c tys l, r'') | _ => None end
      | _ => None
      end
    | K Kat :: TkName c :: K Klp :: r =>
      match p_args n r with Some (l, K Krp :: r') => Some (EConstruct c [] l, r') | _ => None end
    | K Ktrap :: K Klp :: TkStr m :: K Kcomma :: r =>
      match p_ty n r with Some (t, K Krp :: r') => Some (ETrap m t, r') | _ => None end
    | K Kif :: r =>
      match p_lvl n PApply r with
      | Some (a, K Kthen :: r1) =>
        match p_lvl n PMin r1 with
        | Some (b, K Kelse :: r2) => match p_lvl n PMin r2 with Some (c, r3) => Some (EIf a b c, r3) | None => None end
        | _ => None
        end
      | _ => None
      end
    | K Klam :: K Klp :: r =>
      match p_params n r with
      | Some (ps, K Krp :: K Karrow :: r1) => match p_lvl n PMin r1 with Some (b, r2) => Some (ELam ps b, r2) | None => None end
      | _ => None
      end
    | K Kmatch :: r =>
      match p_lvl n PApply r with
      | Some (d, K Kwith :: r1) => match p_brs n r1 with Some (bs, r2) => Some (EMatch d bs, r2) | None => None end
      | _ => None
      end
    | K Klet :: TkName x :: K Keq :: r =>
      match p_lvl n PMin r with
      | Some (v, K Ksemi :: r1) => match p_lvl n PMin r1 with Some (e, r2) => Some (ELet x v e, r2) | None => None end
      | _ => None
      end
    | K Klet :: K Krec :: TkName x :: K Kcolon :: r =>
      match p_ty n r with
      | Some (t, K Keq :: r0) =>
        match p_lvl n PMin r0 with
        | Some (v, K Ksemi :: r1) => match p_lvl n PMin r1 with Some (e, r2) => Some (ELetRec x t v e, r2) | None => None end
        | _ => None
        end
      | _ => None
      end
    | K KPi :: TkVar v :: K Karrow :: r => match p_lvl n PMin r with Some (e, r1) => Some (EPi v e, r1) | None => None end
    | _ => None
    end
  end
with p_args (n : nat) (ts : list tok) {struct n} : option (list expr * list tok) :=
  match n with
  | 0 => None
  | S n =>
    match ts with
    | K Krp :: _ => Some ([], ts)
    | _ => match p_lvl n PMin ts with
           | Some (e, r) => match p_margs n r with Some (l, r') => Some (e :: l, r') | None => None end
           | None => None
           end
    end
  end
with p_margs (n : nat) (ts : list tok) {struct n} : option (list expr * list tok) :=
  match n with
  | 0 => None
  | S n =>
    match ts with
    | K Kcomma :: r =>
      match p_lvl n PMin r with
      | Some (e, r) => match p_margs n r with Some (l, r') => Some (e :: l, r') | None => None end
      | None => None
      end
    | _ => Some ([], ts)
    end
  end
with p_brs (n : nat) (ts : list tok) {struct n} : option (list (nat * list nat * expr) * list tok) :=
  match n with
  | 0 => None
  | S n =>
    match ts with
    | K Kend :: r => Some ([], r)
    | K Kbar :: K Kat :: TkName c :: r =>
      match take_names r with
      | (xs, K Karrow :: r1) =>
        match p_lvl n PMin r1 with
        | Some (e, r2) => match p_brs n r2 with Some (l, r3) => Some ((c, xs, e) :: l, r3) | None => None end
        | None => None
        end
      | _ => None
      end
    | _ => None
    end
  end.

(** What may follow an expression printed at precedence [p]. *)
Definition follow (p : prec) (k : list tok) : Prop :=
  match k with
  | K Klp :: _ | K Klb :: _ => False
  | K (Kop o) :: _ => prec_num (op_prec o) < prec_num p
  | _ => True
  end.
Lemma tk_expr_at e p : tk_expr e p = tparens (prec_lt (expr_prec e) p) (tk_expr e PMin).
Proof. destruct e; reflexivity. Qed.
Lemma follow_le p q k : prec_num p <= prec_num q -> follow p k -> follow q k.
Proof. destruct k as [|[[]| | | |] ?]; simpl; auto. intros; lia. Qed.

(** A result at a stronger level is a result at a weaker one. *)
Lemma climb1 p ts e k : p <> PAtom -> ev (fun n => p_lvl n (prec_next p) ts) (e, k) -> follow p k ->
  ev (fun n => p_lvl n p ts) (e, k).
Proof.
  intros Hp [N H] F. evi N.
  assert (E : p_lvl (S n) p ts = match p_lvl n (prec_next p) ts with
      | Some (a, K (Kop o) :: r) =>
        if prec_eqb (op_prec o) p
        then match p_lvl n (prec_next p) r with Some (b, r') => Some (EOp a o b, r') | None => None end
        else Some (a, K (Kop o) :: r)
      | x => x
      end) by (destruct p; try reflexivity; congruence).
  rewrite E, H by lia. destruct k as [|[[]| | | |] ?]; auto.
  simpl in F. unfold prec_eqb. destruct (Nat.eqb_spec (prec_num (op_prec o)) (prec_num p)); auto. lia.
Qed.
Lemma climb d : forall p q ts e k, prec_num q = d + prec_num p -> ev (fun n => p_lvl n q ts) (e, k) -> follow p k ->
  ev (fun n => p_lvl n p ts) (e, k).
Proof.
  induction d as [|d IH]; intros p q ts e k Hd H F.
  - replace p with q; auto. destruct p, q; simpl in Hd; congruence || lia.
  - assert (Hp : p <> PAtom) by (intros E; rewrite E in Hd; destruct q; cbn in Hd; lia).
    apply climb1; auto.
    apply (IH (prec_next p) q); auto; [destruct p; cbn in *; lia || congruence|].
    eapply follow_le; [|exact F]. destruct p; simpl; lia.
Qed.
Lemma climb_post p ts e k : ev (fun n => p_post n ts) (e, k) -> follow p k -> ev (fun n => p_lvl n p ts) (e, k).
Proof.
  intros [N H] F. apply (@climb (5 - prec_num p) p PAtom); auto; [destruct p; reflexivity|].
  evi N. simpl. apply H. lia.
Qed.
Lemma loop_stop p e k : follow p k -> ev (fun n => p_loop n e k) (e, k).
Proof. intros F. evi 0. destruct k as [|[[]| | | |] ?]; simpl in *; tauto. Qed.
Lemma post_head ts h k r : ev (fun n => p_head n ts) (h, k) -> ev (fun n => p_loop n h k) r -> ev (fun n => p_post n ts) r.
Proof. intros [N H] [N1 H1]. evi (Nat.max N N1). simpl. rewrite H, H1 by lia. reflexivity. Qed.

(** ** The reader recovers the expression *)
Definition rd (e : expr) : Prop :=
  forall p k, follow p k -> ev (fun n => p_lvl n p (tk_expr e p ++ k)) (e, k).
Definition rd_post (e : expr) : Prop :=
  forall k r, ev (fun n => p_loop n e k) r -> ev (fun n => p_post n (tk_expr e PApply ++ k)) r.
(** An expression whose body is recognised as a head, when nothing that could continue it follows. *)
Lemma rd_of_head e : is_op e = false -> expr_prec e = PMin ->
  (forall k, follow PMin k -> ev (fun n => p_head n (tk_expr e PMin ++ k)) (e, k)) -> rd e /\ rd_post e.
Proof.
  intros Ho Hp H.
  assert (Hpar : forall k r, ev (fun n => p_loop n e k) r -> ev (fun n => p_post n (K Klp :: (tk_expr e PMin ++ [K Krp]) ++ k)) r).
  { intros k r L. eapply post_head; [|exact L]. rewrite <- app_assoc.
    destruct (@climb_post PMin (tk_expr e PMin ++ [K Krp] ++ k) e ([K Krp] ++ k)) as [N HN]; [|exact I|].
    - eapply post_head; [apply H; exact I|]. apply loop_stop with PMin. exact I.
    - evi N. cbn [p_head app]. cbn [app] in HN. rewrite HN by lia. reflexivity. }
  split.
  - intros p k F. rewrite tk_expr_at. rewrite Hp. destruct p.
    + cbn [tparens prec_lt]. change (prec_lt PMin PMin) with false. cbn [tparens].
      apply climb_post; auto. eapply post_head; [apply H; auto|]. apply loop_stop with PMin. auto.
    + apply climb_post; auto. apply Hpar. eapply loop_stop; eauto.
    + apply climb_post; auto. apply Hpar. eapply loop_stop; eauto.
    + apply climb_post; auto. apply Hpar. eapply loop_stop; eauto.
    + apply climb_post; auto. apply Hpar. eapply loop_stop; eauto.
    + apply climb_post; auto. apply Hpar. eapply loop_stop; eauto.
  - intros k r L. rewrite tk_expr_at, Hp. apply Hpar. auto.
Qed.
Lemma rd_of_post e : expr_prec e = PAtom ->
  (forall k r, ev (fun n => p_loop n e k) r -> ev (fun n => p_post n (tk_expr e PMin ++ k)) r) -> rd e /\ rd_post e.
Proof.
  intros Hp H. assert (E : forall p, tk_expr e p = tk_expr e PMin). { intros p. rewrite tk_expr_at, Hp. destruct p; reflexivity. }
  split.
  - intros p k F. rewrite E. apply climb_post; auto. apply H. eapply loop_stop; eauto.
  - intros k r L. rewrite E. apply H. auto.
Qed.
Lemma rd_of_atom e : expr_prec e = PAtom ->
  (forall k, ev (fun n => p_head n (tk_expr e PMin ++ k)) (e, k)) -> rd e /\ rd_post e.
Proof. intros Hp H. apply rd_of_post; auto. intros k r L. eapply post_head; eauto. Qed.

Lemma read_margs l k : Forall rd l -> follow PMin k -> no_comma k ->
  ev (fun n => p_margs n (flat_map (fun y => K Kcomma :: y) (map (fun t => tk_expr t PMin) l) ++ k)) (l, k).
Proof.
  intros H F C. induction H as [|t l Ht _ [N IH]]; cbn [flat_map map app].
  - evi 0. destruct k as [|[[]| | | |] ?]; simpl in *; tauto.
  - destruct (Ht PMin (flat_map (fun y => K Kcomma :: y) (map (fun t => tk_expr t PMin) l) ++ k)) as [N1 H1].
    { destruct l; simpl; auto. }
    evi (Nat.max N N1). cbn [p_margs]. rewrite <- app_assoc, H1, IH by lia. reflexivity.
Qed.
Lemma p_args_cons n ts : (exists a r, ts = a :: r /\ a <> K Krp) -> p_args (S n) ts =
  match p_lvl n PMin ts with
  | Some (e, r) => match p_margs n r with Some (l, r') => Some (e :: l, r') | None => None end
  | None => None
  end.
Proof. intros (a & r & -> & H). destruct a as [[]| | | |]; try reflexivity. congruence. Qed.
Lemma expr_head_not_rp e : forall p k, exists a r, tk_expr e p ++ k = a :: r /\ a <> K Krp.
Proof.
  induction e using expr_ind'; intros p k; rewrite tk_expr_at; destruct (prec_lt _ p);
    try (eexists _, _; split; [reflexivity|discriminate]);
    cbn [tparens tk_expr app]; change (prec_lt _ PMin) with false; cbn [tparens app]; rewrite <- ?app_assoc;
    try (eexists _, _; split; [reflexivity|discriminate]).
  - destruct b; eexists _, _; (split; [reflexivity|discriminate]).
  - apply IHe.
  - apply IHe1.
  - apply IHe.
Qed.
Lemma read_args l k : Forall rd l ->
  ev (fun n => p_args n (tcommas (map (fun t => tk_expr t PMin) l) ++ K Krp :: k)) (l, K Krp :: k).
Proof.
  intros H. destruct H as [|t l Ht Hl]; cbn [map tcommas app].
  - evi 0. reflexivity.
  - destruct (@read_margs l (K Krp :: k) Hl I I) as [N IH].
    destruct (Ht PMin (flat_map (fun y => K Kcomma :: y) (map (fun t => tk_expr t PMin) l) ++ K Krp :: k)) as [N1 H1].
    { destruct l; simpl; auto. }
    rewrite <- app_assoc. evi (Nat.max N N1). rewrite p_args_cons by apply expr_head_not_rp. rewrite H1, IH by lia. reflexivity.
Qed.
Lemma params_stop n k : p_params (S n) (K Krp :: k) = Some ([], K Krp :: k).
Proof. reflexivity. Qed.
Lemma read_params_more ps k :
  ev (fun n => p_params n (flat_map (fun y => K Kcomma :: y) (map tk_param ps) ++ K Krp :: k)) (ps, K Krp :: k).
Proof.
  induction ps as [|[x t] ps [N IH]]; cbn [map flat_map app].
  - evi 0. reflexivity.
  - unfold tk_param at 1. cbn [fst snd app]. rewrite <- app_assoc.
    destruct (@read_ty t (flat_map (fun y => K Kcomma :: y) (map tk_param ps) ++ K Krp :: k)) as [N1 H1].
    { destruct ps; simpl; auto. }
    evi (Nat.max N N1). cbn [p_params]. rewrite H1, IH by lia. reflexivity.
Qed.
Lemma read_params ps k : ev (fun n => p_params n (tcommas (map tk_param ps) ++ K Krp :: k)) (ps, K Krp :: k).
Proof.
  destruct ps as [|[x t] ps]; cbn [map tcommas app].
  - evi 0. reflexivity.
  - unfold tk_param at 1. cbn [fst snd app]. rewrite <- app_assoc. destruct (read_params_more ps k) as [N IH].
    destruct (@read_ty t (flat_map (fun y => K Kcomma :: y) (map tk_param ps) ++ K Krp :: k)) as [N1 H1].
    { destruct ps; simpl; auto. }
    evi (Nat.max N N1). cbn [p_params]. rewrite H1, IH by lia. reflexivity.
Qed.
Lemma take_names_spec xs k : take_names (map TkName xs ++ K Karrow :: k) = (xs, K Karrow :: k).
Proof. induction xs; simpl; [reflexivity|]. rewrite IHxs. reflexivity. Qed.
Lemma read_brs bs k : Forall (fun br => rd (snd br)) bs ->
  ev (fun n => p_brs n (flat_map (fun br => K Kbar :: K Kat :: TkName (fst (fst br)) :: map TkName (snd (fst br)) ++
                          K Karrow :: tk_expr (snd br) PMin) bs ++ K Kend :: k)) (bs, k).
Proof.
  induction 1 as [|[[c xs] e] bs Hb _ [N IH]]; cbn [flat_map app fst snd].
  - evi 0. reflexivity.
  - rewrite <- !app_assoc. cbn [app].
    match goal with |- context [tk_expr e PMin ++ ?x] => destruct (Hb PMin x) as [N1 H1] end.
    { destruct bs; simpl; auto. }
    cbn [snd] in H1. evi (Nat.max N N1). cbn [p_brs]. rewrite take_names_spec, H1, IH by lia. reflexivity.
Qed.

Lemma rd_op a o b : rd a -> rd b -> rd (EOp a o b).
Proof.
  intros Ha Hb.
  assert (Own : forall k, follow (op_prec o) k -> ev (fun n => p_lvl n (op_prec o) (tk_expr (EOp a o b) PMin ++ k)) (EOp a o b, k)).
  { intros k F. cbn [tk_expr]. replace (prec_lt _ PMin) with false by (destruct o; reflexivity). cbn [tparens]. rewrite <- app_assoc. cbn [app].
    destruct (Ha (prec_next (op_prec o)) (K (Kop o) :: tk_expr b (prec_next (op_prec o)) ++ k)) as [N H].
    { simpl. destruct o; simpl; lia. }
    destruct (Hb (prec_next (op_prec o)) k) as [N1 H1]. { eapply follow_le; [|exact F]. destruct o; simpl; lia. }
    evi (Nat.max N N1).
    specialize (H n ltac:(lia)). specialize (H1 n ltac:(lia)).
    destruct o; cbn [op_prec prec_next] in *; cbn [p_lvl prec_next]; rewrite H; cbn [prec_eqb op_prec prec_num Nat.eqb]; rewrite H1; reflexivity. }
  assert (Low : forall p k, prec_num p <= prec_num (op_prec o) -> follow p k ->
            ev (fun n => p_lvl n p (tk_expr (EOp a o b) PMin ++ k)) (EOp a o b, k)).
  { intros p k L F. apply (@climb (prec_num (op_prec o) - prec_num p) p (op_prec o)); auto; [lia|].
    apply Own. eapply follow_le; eauto. }
  intros p k F. rewrite tk_expr_at. cbn [expr_prec]. destruct (prec_lt (op_prec o) p) eqn:E.
  - cbn [tparens app]. rewrite <- app_assoc. apply climb_post; auto. eapply post_head; [|eapply loop_stop; eauto].
    destruct (Low PMin ([K Krp] ++ k)) as [N H]; [destruct o; simpl; lia|exact I|].
    evi N. cbn [p_head]. rewrite H by lia. reflexivity.
  - apply Low; auto. unfold prec_lt in E. apply Nat.ltb_ge in E. auto.
Qed.

Lemma read_expr e : readable e -> rd e /\ (is_op e = false -> rd_post e).
Proof.
  induction e using expr_ind'; cbn [readable]; intros R.
  - enough (rd (EBool b) /\ rd_post (EBool b)) by tauto. apply rd_of_atom; auto. intros k. evi 0. destruct b; reflexivity.
  - enough (rd (EInt i) /\ rd_post (EInt i)) by tauto. apply rd_of_atom; auto. intros k. evi 0. reflexivity.
  - enough (rd (EString s) /\ rd_post (EString s)) by tauto. apply rd_of_atom; auto. intros k. evi 0. reflexivity.
  - enough (rd (EName n) /\ rd_post (EName n)) by tauto. apply rd_of_atom; auto. intros k. evi 0. reflexivity.
  - destruct R as (R0 & R1 & R2). apply and_Forall in R2. destruct (IHe R1) as [_ Hf]. specialize (Hf R0).
    enough (rd (ECall e args) /\ rd_post (ECall e args)) by tauto. apply rd_of_post; auto.
    intros k r [N L]. cbn [tk_expr]. change (prec_lt _ PMin) with false. cbn [tparens]. rewrite <- app_assoc. apply Hf.
    cbn [app]. rewrite <- app_assoc. cbn [app].
    destruct (@read_args args k) as [N1 H1]. { rewrite Forall_forall in *. intros x Hx. apply H; auto. }
    evi (Nat.max N N1). cbn [p_loop]. rewrite H1 by lia. apply L. lia.
  - destruct R as (R1 & R2 & R3). destruct (IHe1 R1) as [H1 _], (IHe2 R2) as [H2 _], (IHe3 R3) as [H3 _].
    enough (rd (EIf e1 e2 e3) /\ rd_post (EIf e1 e2 e3)) by tauto. apply rd_of_head; auto. intros k F.
    cbn [tk_expr]. change (prec_lt _ PMin) with false. cbn [tparens app]. rewrite <- app_assoc. cbn [app]. rewrite <- app_assoc. cbn [app].
    destruct (H1 PApply (K Kthen :: tk_expr e2 PMin ++ K Kelse :: tk_expr e3 PMin ++ k)) as [N1 E1]; [exact I|].
    destruct (H2 PMin (K Kelse :: tk_expr e3 PMin ++ k)) as [N2 E2]; [exact I|].
    destruct (H3 PMin k F) as [N3 E3].
    evi (Nat.max N1 (Nat.max N2 N3)). cbn [p_head]. rewrite E1, E2, E3 by lia. reflexivity.
  - destruct R as (_ & R1 & R2). split; [|discriminate]. apply rd_op; [apply IHe1|apply IHe2]; auto.
  - apply and_Forall in R. enough (rd (EIntr i args) /\ rd_post (EIntr i args)) by tauto. apply rd_of_atom; auto. intros k.
    cbn [tk_expr]. change (prec_lt _ PMin) with false. cbn [tparens app]. rewrite <- app_assoc. cbn [app].
    destruct (@read_args args k) as [N1 H1]. { rewrite Forall_forall in *. intros x Hx. apply H; auto. }
    evi N1. cbn [p_head]. rewrite H1 by lia. reflexivity.
  - destruct (IHe R) as [H1 _]. enough (rd (ELam ps e) /\ rd_post (ELam ps e)) by tauto. apply rd_of_head; auto. intros k F.
    cbn [tk_expr]. change (prec_lt _ PMin) with false. cbn [tparens app]. rewrite <- app_assoc. cbn [app].
    destruct (read_params ps (K Karrow :: tk_expr e PMin ++ k)) as [N E]. destruct (H1 PMin k F) as [N1 E1].
    evi (Nat.max N N1). cbn [p_head]. rewrite E, E1 by lia. reflexivity.
  - destruct R as (R1 & R2). apply and_Forall in R2. destruct (IHe R1) as [H1 _].
    enough (rd (EMatch e brs) /\ rd_post (EMatch e brs)) by tauto. apply rd_of_head; auto. intros k F.
    cbn [tk_expr]. change (prec_lt _ PMin) with false. cbn [tparens app]. rewrite <- app_assoc. cbn [app]. rewrite <- app_assoc. cbn [app].
    destruct (@read_brs brs k) as [N E]. { rewrite Forall_forall in *. intros x Hx. apply H; auto. }
    match goal with |- context [K Kwith :: ?x] => destruct (H1 PApply (K Kwith :: x)) as [N1 E1]; [exact I|] end.
    evi (Nat.max N N1). cbn [p_head]. rewrite E1, E by lia. reflexivity.
  - apply and_Forall in R. enough (rd (EConstruct c tys fs) /\ rd_post (EConstruct c tys fs)) by tauto. apply rd_of_atom; auto. intros k.
    cbn [tk_expr]. change (prec_lt _ PMin) with false. cbn [tparens app].
    destruct (@read_args fs k) as [N1 H1]. { rewrite Forall_forall in *. intros x Hx. apply H; auto. }
    destruct tys as [|t tys]; rewrite <- ?app_assoc; cbn [app]; rewrite <- ?app_assoc; cbn [app].
    + evi N1. cbn [p_head]. rewrite H1 by lia. reflexivity.
    + destruct (@read_tys (t :: tys) (K Krb :: K Klp :: tcommas (map (fun a => tk_expr a PMin) fs) ++ K Krp :: k)) as [N E];
        [|exact I|exact I|discriminate|].
      { apply Forall_forall. intros x _. apply read_ty. }
      evi (Nat.max N N1). cbn [p_head]. rewrite E, H1 by lia. reflexivity.
  - destruct R as (R1 & R2). destruct (IHe1 R1) as [H1 _], (IHe2 R2) as [H2 _].
    enough (rd (ELet n e1 e2) /\ rd_post (ELet n e1 e2)) by tauto. apply rd_of_head; auto. intros k F.
    cbn [tk_expr]. change (prec_lt _ PMin) with false. cbn [tparens app]. rewrite <- app_assoc. cbn [app].
    destruct (H1 PMin (K Ksemi :: tk_expr e2 PMin ++ k)) as [N1 E1]; [exact I|]. destruct (H2 PMin k F) as [N2 E2].
    evi (Nat.max N1 N2). cbn [p_head]. rewrite E1, E2 by lia. reflexivity.
  - destruct R as (R1 & R2). destruct (IHe1 R1) as [H1 _], (IHe2 R2) as [H2 _].
    enough (rd (ELetRec n t e1 e2) /\ rd_post (ELetRec n t e1 e2)) by tauto. apply rd_of_head; auto. intros k F.
    cbn [tk_expr]. change (prec_lt _ PMin) with false. cbn [tparens app]. rewrite <- app_assoc. cbn [app]. rewrite <- app_assoc. cbn [app].
    destruct (@read_ty t (K Keq :: tk_expr e1 PMin ++ K Ksemi :: tk_expr e2 PMin ++ k)) as [N0 E0]; [exact I|].
    destruct (H1 PMin (K Ksemi :: tk_expr e2 PMin ++ k)) as [N1 E1]; [exact I|]. destruct (H2 PMin k F) as [N2 E2].
    evi (Nat.max N0 (Nat.max N1 N2)). cbn [p_head]. rewrite E0, E1, E2 by lia. reflexivity.
  - destruct (IHe R) as [H1 _]. enough (rd (EPi v e) /\ rd_post (EPi v e)) by tauto. apply rd_of_head; auto. intros k F.
    cbn [tk_expr]. change (prec_lt _ PMin) with false. cbn [tparens app].
    destruct (H1 PMin k F) as [N1 E1]. evi N1. cbn [p_head]. rewrite E1 by lia. reflexivity.
  - destruct R as (R0 & R1). destruct (IHe R1) as [_ Hf]. specialize (Hf R0).
    enough (rd (EPiApp e t) /\ rd_post (EPiApp e t)) by tauto. apply rd_of_post; auto.
    intros k r [N L]. cbn [tk_expr]. change (prec_lt _ PMin) with false. cbn [tparens]. rewrite <- app_assoc. apply Hf.
    cbn [app]. rewrite <- app_assoc. cbn [app].
    destruct (@read_ty t (K Krb :: k)) as [N1 H1]; [exact I|].
    evi (Nat.max N N1). cbn [p_loop]. rewrite H1 by lia. apply L. lia.
  - enough (rd (ETrap m t) /\ rd_post (ETrap m t)) by tauto. apply rd_of_atom; auto. intros k.
    cbn [tk_expr]. change (prec_lt _ PMin) with false. cbn [tparens app]. rewrite <- app_assoc. cbn [app].
    destruct (@read_ty t (K Krp :: k)) as [N1 H1]; [exact I|].
    evi N1. cbn [p_head]. rewrite H1 by lia. reflexivity.
Qed.

(** ** Programs *)
Definition p_def (n : nat) (ts : list tok) : option (valdef * list tok) :=
  let go x ts :=
    match ts with
    | K Klet :: TkName m :: K Kcolon :: r =>
      match p_ty n r with
      | Some (t, K Keq :: r1) =>
        match p_lvl n PMin r1 with Some (e, K Ksemi :: r2) => Some (mkValDef m x t e, r2) | _ => None end
      | _ => None
      end
    | _ => None
    end in
  match ts with
  | K Kexport :: K Klp :: TkStr x :: K Krp :: r => go (Some x) r
  | _ => go None ts
  end.
Lemma read_def d k : def_ok d -> ev (fun n => p_def n (tk_def d ++ k)) (d, k).
Proof.
  intros [_ R]. destruct (read_expr _ R) as [H _]. destruct d as [m x t e]. cbn in *.
  unfold tk_def. cbn [vd_export vd_name vd_ty vd_value].
  destruct (H PMin (K Ksemi :: k) I) as [N1 E1]. destruct (@read_ty t (K Keq :: tk_expr e PMin ++ K Ksemi :: k) I) as [N E].
  exists (Nat.max N N1). intros n Hn. destruct x as [x|]; cbn [app p_def]; rewrite <- !app_assoc; cbn [app]; rewrite <- !app_assoc; cbn [app];
    rewrite E by lia; rewrite E1 by lia; reflexivity.
Qed.
Lemma def_tokens_inj : forall ds ds', Forall def_ok ds -> Forall def_ok ds' ->
  flat_map tk_def ds = flat_map tk_def ds' -> ds = ds'.
Proof.
  assert (Hne : forall d ds, flat_map tk_def (d :: ds) <> []).
  { intros d ds E. cbn [flat_map] in E. apply app_eq_nil in E as [E _]. unfold tk_def in E.
    apply app_eq_nil in E as [_ E]. discriminate. }
  induction ds as [|d ds IH]; intros [|d' ds'] H H' E; auto.
  - exfalso. eapply Hne. symmetry. exact E.
  - exfalso. eapply Hne. exact E.
  - inversion H as [|? ? Hd Hds]; inversion H' as [|? ? Hd' Hds']; subst.
    destruct (@read_def _ (flat_map tk_def ds) Hd) as [N1 E1]. destruct (@read_def _ (flat_map tk_def ds') Hd') as [N2 E2].
    specialize (E1 (Nat.max N1 N2) ltac:(lia)). specialize (E2 (Nat.max N1 N2) ltac:(lia)).
    cbn [flat_map] in E. rewrite E in E1. rewrite E1 in E2. injection E2 as -> E2. f_equal. apply IH; auto.
Qed.

(** Tokens of readable programs are proper. *)
Lemma ty_toks_ok t : forall p, Forall tok_ok (tk_ty t p).
Proof.
  assert (Hp : forall b ts, Forall tok_ok ts -> Forall tok_ok (tparens b ts)).
  { intros [] ts H; auto. constructor; [exact I|]. apply Forall_app; split; auto. repeat constructor. }
  assert (Hc : forall ts : list ty, Forall (fun t => forall p, Forall tok_ok (tk_ty t p)) ts ->
             Forall tok_ok (tcommas (map (fun t => tk_ty t PMin) ts))).
  { intros ts H. destruct H as [|t' ts H1 H2]; [constructor|]. cbn [map tcommas]. apply Forall_app. split; auto.
    induction H2; cbn [map flat_map app]; [constructor|]. constructor; [exact I|]. apply Forall_app; split; auto. }
  induction t using ty_ind'; intros p; cbn [tk_ty]; apply Hp; repeat (constructor; try exact I).
  - induction H; cbn [flat_map]; [constructor|]. apply Forall_app; split; auto.
  - apply Forall_app; split; auto. repeat (constructor; try exact I). auto.
  - auto.
Qed.
Lemma expr_toks_ok e : readable e -> forall p, Forall tok_ok (tk_expr e p).
Proof.
  assert (Hp : forall b ts, Forall tok_ok ts -> Forall tok_ok (tparens b ts)).
  { intros [] ts H; auto. constructor; [exact I|]. apply Forall_app; split; auto. repeat constructor. }
  assert (Hc : forall A (f : A -> list tok) l, Forall (fun x => Forall tok_ok (f x)) l -> Forall tok_ok (tcommas (map f l))).
  { intros A f l H. destruct H as [|t' ts H1 H2]; [constructor|]. cbn [map tcommas]. apply Forall_app. split; auto.
    induction H2; cbn [map flat_map app]; [constructor|]. constructor; [exact I|]. apply Forall_app; split; auto. }
  assert (Ha : forall args, Forall (fun e => readable e -> forall p, Forall tok_ok (tk_expr e p)) args ->
      fold_right and True (map readable args) ->
      Forall tok_ok (tcommas (map (fun a => tk_expr a PMin) args) ++ [K Krp])).
  { intros args H R. apply and_Forall in R. apply Forall_app; split; [|repeat constructor]. apply Hc.
    rewrite Forall_forall in *. auto. }
  induction e using expr_ind'; cbn [readable]; intros R p; cbn [tk_expr]; apply Hp.
  - destruct b; repeat constructor.
  - repeat constructor.
  - repeat constructor. auto.
  - repeat constructor.
  - destruct R as (_ & R1 & R2). apply Forall_app; split; auto. constructor; [exact I|]. auto.
  - destruct R as (R1 & R2 & R3). constructor; [exact I|]. apply Forall_app; split; auto. constructor; [exact I|].
    apply Forall_app; split; auto. constructor; [exact I|]. auto.
  - destruct R as (R0 & R1 & R2). apply Forall_app; split; auto. constructor; auto. destruct o; simpl; auto.
  - constructor; [exact I|]. constructor; [exact I|]. auto.
  - constructor; [exact I|]. constructor; [exact I|]. apply Forall_app; split.
    + apply Hc. apply Forall_forall. intros [x t] _. repeat (constructor; try exact I). apply ty_toks_ok.
    + repeat (constructor; try exact I). auto.
  - destruct R as (R1 & R2). apply and_Forall in R2. constructor; [exact I|]. apply Forall_app; split; auto. constructor; [exact I|].
    apply Forall_app; split; [|repeat constructor]. clear - H R2. induction H; inversion R2; subst; cbn [flat_map]; [constructor|].
    apply Forall_app; split; auto. repeat (constructor; try exact I). apply Forall_app; split.
    + apply Forall_forall. intros y Hy. apply in_map_iff in Hy as (z & <- & _). exact I.
    + constructor; [exact I|]. auto.
  - constructor; [exact I|]. constructor; [exact I|]. apply Forall_app; split.
    + destruct tys as [|t tys]; [constructor|]. constructor; [exact I|]. apply Forall_app; split; [|repeat constructor].
      apply Hc. apply Forall_forall. intros. apply ty_toks_ok.
    + constructor; [exact I|]. auto.
  - destruct R as (R1 & R2). repeat (constructor; try exact I). apply Forall_app; split; auto. constructor; [exact I|]. auto.
  - destruct R as (R1 & R2). repeat (constructor; try exact I). apply Forall_app; split; [apply ty_toks_ok|].
    constructor; [exact I|]. apply Forall_app; split; auto. constructor; [exact I|]. auto.
  - repeat (constructor; try exact I). auto.
  - destruct R as (_ & R). apply Forall_app; split; auto. constructor; [exact I|]. apply Forall_app; split; [apply ty_toks_ok|repeat constructor].
  - constructor; [exact I|]. constructor; [exact I|]. constructor; [apply msg_str; auto|]. constructor; [exact I|].
    apply Forall_app; split; [apply ty_toks_ok|repeat constructor].
Qed.
Lemma def_toks_ok ds : Forall def_ok ds -> Forall tok_ok (flat_map tk_def ds).
Proof.
  induction 1 as [|d ds [Hx R] _ IH]; cbn [flat_map]; [constructor|]. apply Forall_app; split; auto.
  unfold tk_def. apply Forall_app; split.
  - destruct (vd_export d); [|constructor]. repeat (constructor; try exact I). apply msg_str; auto.
  - repeat (constructor; try exact I). apply Forall_app; split; [apply ty_toks_ok|]. constructor; [exact I|].
    apply Forall_app; split; [apply expr_toks_ok; auto|repeat constructor].
Qed.

Lemma pretty_inj tbl tbl' p q t : names_ok tbl -> names_ok tbl' -> Forall def_ok (p_defs p) -> Forall def_ok (p_defs q) ->
  pretty_print tbl p = Some t -> pretty_print tbl' q = Some t -> p_defs p = p_defs q.
Proof.
  intros HN HN' Hp Hq Ep Eq. destruct (@pretty_tokens _ p HN Hp) as (t1 & E1 & T1). destruct (@pretty_tokens _ q HN' Hq) as (t2 & E2 & T2).
  assert (t1 = t) by congruence. assert (t2 = t) by congruence. subst t1 t2. apply def_tokens_inj; auto.
  apply (@show_toks_inj tbl tbl'); auto using def_toks_ok. congruence.
Qed.
Lemma pretty_total tbl p : exists t, pretty_print tbl p = Some t.
Proof.
  unfold pretty_print. generalize (@nil N). induction (p_defs p) as [|d ds IH]; intros pre; cbn [pretty_defs]; [eauto|].
  destruct (format_laid (wr_def tbl d)) as (t & -> & _). apply IH.
Qed.
