(** Step-indexed logical relation between core expressions, used to show that the optimiser's rewrites
    preserve successful runs.  Proof infrastructure only: nothing here occurs in the theorems' statements. *)
From Verif Require Import EvalFacts Orders Compile CompileStatic Vm OptEv.
Set Implicit Arguments.

(** ** Free names *)
Definition minus (l xs : list name) : list name := filter (fun x => negb (mem x xs)) l.
Lemma in_minus x l xs : In x (minus l xs) <-> In x l /\ ~ In x xs.
Proof. unfold minus. rewrite filter_In, negb_true_iff, mem_false. tauto. Qed.

Fixpoint fv (e : expr) : list name :=
  match e with
  | EBool _ | EInt _ | EString _ | ETrap _ _ => []
  | EName n => [n]
  | ECall f args => fv f ++ flat_map fv args
  | EIf c t e => fv c ++ fv t ++ fv e
  | EOp a _ b => fv a ++ fv b
  | EIntr _ args => flat_map fv args
  | ELam ps b => minus (fv b) (map fst ps)
  | EMatch d brs => fv d ++ flat_map (fun br => minus (fv (snd br)) (snd (fst br))) brs
  | EConstruct _ _ fs => flat_map fv fs
  | ELet n v e => fv v ++ minus (fv e) [n]
  | ELetRec n _ v e => minus (fv v ++ fv e) [n]
  | EPi _ e => fv e
  | EPiApp e _ => fv e
  end.

Lemma fv_strip e : fv (strip_pis e) = fv e.
Proof. induction e; simpl; auto. Qed.

(** ** Values *)
Section Vr.
  Variable L : nat -> value -> value -> Prop.
  Variable k : nat.
  Inductive Vr : value -> value -> Prop :=
  | Vr_int i : Vr (VInt i) (VInt i)
  | Vr_bool b : Vr (VBool b) (VBool b)
  | Vr_str s : Vr (VStr s) (VStr s)
  | Vr_comp c vs vs' : Forall2 Vr vs vs' -> Vr (VComp c vs) (VComp c vs')
  | Vr_fn cenv rec ps body cenv' rec' ps' body' :
      length ps = length ps' ->
      (forall j i args args' r, j < k -> i <= j -> Forall2 (L j) args args' -> length ps = length args ->
         ev i (call_env cenv rec ps body args) body r ->
         exists c r', ev c (call_env cenv' rec' ps' body' args') body' r' /\ L (j - i) r r') ->
      Vr (VFn cenv rec ps body) (VFn cenv' rec' ps' body').
End Vr.

Section ValueInd.
  Variable P : value -> Prop.
  Hypothesis Hi : forall i, P (VInt i).
  Hypothesis Hb : forall b, P (VBool b).
  Hypothesis Hs : forall s, P (VStr s).
  Hypothesis Hc : forall c fs, Forall P fs -> P (VComp c fs).
  Hypothesis Hf : forall en r ps b, P (VFn en r ps b).
  Fixpoint value_ind' (v : value) : P v :=
    match v with
    | VInt i => Hi i | VBool b => Hb b | VStr s => Hs s
    | VComp c fs => Hc c ((fix all (l : list value) : Forall P l :=
        match l with [] => Forall_nil _ | x :: r => Forall_cons _ (value_ind' x) (all r) end) fs)
    | VFn en r ps b => Hf en r ps b
    end.
End ValueInd.

Lemma Forall2_len {A B} (R : A -> B -> Prop) l l' : Forall2 R l l' -> length l = length l'.
Proof. induction 1; simpl; congruence. Qed.

Lemma Forall2_weak {A B} (R R' : A -> B -> Prop) l l' :
  (forall a b, R a b -> R' a b) -> Forall2 R l l' -> Forall2 R' l l'.
Proof. intros H; induction 1; auto. Qed.

Lemma Vr_mono L L' k k' : k' <= k -> (forall j v v', j < k' -> (L j v v' <-> L' j v v')) ->
  forall v v', Vr L k v v' -> Vr L' k' v v'.
Proof.
  intros Hk HL v. induction v using value_ind'; intros v' H'; inversion H'; subst; try constructor; auto.
  - match goal with H1 : Forall2 (Vr L k) fs vs' |- _ => clear H'; revert vs' H1 end.
    induction H; intros vs' H1; inversion H1; subst; constructor; auto.
  - intros j i args args' r0 Hj Hi Ha Hl He.
    destruct (H5 j i args args' r0) as (c & r' & E & Hr); auto; [lia| |].
    + eapply Forall2_weak; [|exact Ha]. intros; apply HL; auto.
    + exists c, r'. split; auto. apply HL; auto. lia.
Qed.

Fixpoint Vle (n j : nat) : value -> value -> Prop :=
  match n with
  | O => Vr (fun _ _ _ => True) 0
  | S m => if j <=? m then Vle m j else Vr (Vle m) (S m)
  end.
Definition V (k : nat) : value -> value -> Prop := Vle k k.

Lemma Vle_V n j : j <= n -> Vle n j = V j.
Proof.
  induction n as [|n IH]; intros H.
  - assert (j = 0) by lia. subst. reflexivity.
  - simpl. destruct (j <=? n) eqn:E.
    + apply Nat.leb_le in E. auto.
    + apply Nat.leb_gt in E. assert (j = S n) by lia. subst. unfold V. cbn [Vle].
      destruct (S n <=? n) eqn:E2; auto. apply Nat.leb_le in E2; lia.
Qed.

Lemma V_eq k v v' : V k v v' <-> Vr V k v v'.
Proof.
  destruct k as [|k].
  - split; apply Vr_mono; auto; intros; lia.
  - assert (E : V (S k) = Vr (Vle k) (S k)).
    { unfold V. cbn [Vle]. destruct (S k <=? k) eqn:E2; auto. apply Nat.leb_le in E2; lia. }
    rewrite E. split; apply Vr_mono; auto; intros j a b Hj; rewrite Vle_V by lia; tauto.
Qed.

Lemma V_mono k k' v v' : k' <= k -> V k v v' -> V k' v v'.
Proof. rewrite !V_eq. intros H. apply Vr_mono; auto. tauto. Qed.
Lemma Vs_mono k k' vs vs' : k' <= k -> Forall2 (V k) vs vs' -> Forall2 (V k') vs vs'.
Proof. intros H. apply Forall2_weak. intros; eapply V_mono; eauto. Qed.

Lemma V_int k i : V k (VInt i) (VInt i). Proof. apply V_eq; constructor. Qed.
Lemma V_bool k i : V k (VBool i) (VBool i). Proof. apply V_eq; constructor. Qed.
Lemma V_str k i : V k (VStr i) (VStr i). Proof. apply V_eq; constructor. Qed.
Lemma V_comp k c vs vs' : Forall2 (V k) vs vs' -> V k (VComp c vs) (VComp c vs').
Proof. intros H. apply V_eq; constructor. eapply Forall2_weak; [|exact H]. intros; apply V_eq; auto. Qed.
Lemma V_fn k cenv rec ps body cenv' rec' ps' body' : length ps = length ps' ->
  (forall j i args args' r, j < k -> i <= j -> Forall2 (V j) args args' -> length ps = length args ->
     ev i (call_env cenv rec ps body args) body r ->
     exists c r', ev c (call_env cenv' rec' ps' body' args') body' r' /\ V (j - i) r r') ->
  V k (VFn cenv rec ps body) (VFn cenv' rec' ps' body').
Proof. intros. apply V_eq; constructor; auto. Qed.

Lemma V_int_inv k i v : V k (VInt i) v -> v = VInt i.
Proof. rewrite V_eq; inversion 1; auto. Qed.
Lemma V_bool_inv k i v : V k (VBool i) v -> v = VBool i.
Proof. rewrite V_eq; inversion 1; auto. Qed.
Lemma V_str_inv k i v : V k (VStr i) v -> v = VStr i.
Proof. rewrite V_eq; inversion 1; auto. Qed.
Lemma V_comp_inv k c vs v : V k (VComp c vs) v -> exists vs', v = VComp c vs' /\ Forall2 (V k) vs vs'.
Proof.
  rewrite V_eq; inversion 1; subst. eexists; split; eauto. eapply Forall2_weak; [|eassumption].
  intros; apply V_eq; auto.
Qed.
Lemma V_fn_inv k cenv rec ps body v : V k (VFn cenv rec ps body) v ->
  exists cenv' rec' ps' body', v = VFn cenv' rec' ps' body' /\ length ps = length ps' /\
  (forall j i args args' r, j < k -> i <= j -> Forall2 (V j) args args' -> length ps = length args ->
     ev i (call_env cenv rec ps body args) body r ->
     exists c r', ev c (call_env cenv' rec' ps' body' args') body' r' /\ V (j - i) r r').
Proof. rewrite V_eq; inversion 1; subst. do 4 eexists. split; [reflexivity|]. split; assumption. Qed.

Lemma V_obs k v : forall v', V k v v' -> obs_value v' = obs_value v.
Proof.
  induction v using value_ind'; intros v' Hv.
  - apply V_int_inv in Hv as ->; auto.
  - apply V_bool_inv in Hv as ->; auto.
  - apply V_str_inv in Hv as ->; auto.
  - apply V_comp_inv in Hv as (vs' & -> & Hv). simpl. f_equal. revert vs' Hv. induction H; intros vs' Hv; inversion Hv; subst; simpl; auto.
    f_equal; auto.
  - apply V_fn_inv in Hv as (? & ? & ? & ? & -> & _). auto.
Qed.

(** ** Environments and expressions.  [P x e'] says that in the target program the name [x] of the source
    program may be replaced by [e']. *)
Definition pmap := name -> expr -> Prop.
Definition agree (S : list name) (r r' : env) : Prop := forall x, In x S -> lookup x r = lookup x r'.
Definition G (P : pmap) (k : nat) (r r' : env) : Prop :=
  forall x e', P x e' -> forall v, lookup x r = Some v -> forall r'', agree (fv e') r' r'' ->
  exists c v', ev c r'' e' v' /\ V k v v'.
Definition rel (P : pmap) (e e' : expr) : Prop :=
  forall k r r' i v, G P k r r' -> i <= k -> ev i r e v -> exists c v', ev c r' e' v' /\ V (k - i) v v'.

Definition ext (P : pmap) (x y : name) : pmap :=
  fun a e' => (a = x /\ e' = EName y) \/ (a <> x /\ ~ In y (fv e') /\ P a e').
Fixpoint exts (P : pmap) (xs ys : list name) : pmap :=
  match xs, ys with
  | x :: xs', y :: ys' => exts (ext P x y) xs' ys'
  | _, _ => P
  end.

Lemma agree_refl S r : agree S r r. Proof. intros x _; auto. Qed.

Lemma G_mono P k k' r r' : k' <= k -> G P k r r' -> G P k' r r'.
Proof.
  intros Hk H x e' HP v Hv r'' Ha. destruct (H _ _ HP _ Hv _ Ha) as (c & v' & E & HV).
  exists c, v'. split; auto. eapply V_mono; eauto.
Qed.
Lemma G_sub (P Q : pmap) k r r' : (forall x e, Q x e -> P x e) -> G P k r r' -> G Q k r r'.
Proof. intros H HG x e' HP. apply HG; auto. Qed.
Lemma rel_sub (P Q : pmap) e e' : (forall x e, P x e -> Q x e) -> rel P e e' -> rel Q e e'.
Proof. intros H HR k r r' i v HG. apply HR. eapply G_sub; eauto. Qed.
Lemma ext_sub (P Q : pmap) x y : (forall a e, P a e -> Q a e) -> forall a e, ext P x y a e -> ext Q x y a e.
Proof. intros H a e [?|(? & ? & ?)]; [left|right]; auto. Qed.
Lemma exts_sub xs : forall ys (P Q : pmap), (forall a e, P a e -> Q a e) -> forall a e, exts P xs ys a e -> exts Q xs ys a e.
Proof.
  induction xs as [|x xs IH]; intros [|y ys] P Q H a e; simpl; auto. apply IH. apply ext_sub; auto.
Qed.

Lemma G_ext P k r r' x y v v' : G P k r r' -> V k v v' -> G (ext P x y) k ((x, v) :: r) ((y, v') :: r').
Proof.
  intros HG HV a e' [[-> ->]|(Hn & Hy & HP)] w Hw r'' Ha; simpl in Hw.
  - rewrite Nat.eqb_refl in Hw. injection Hw as <-. exists 0, v'. split; auto. constructor.
    rewrite <- (Ha y) by (simpl; auto). simpl. rewrite Nat.eqb_refl; auto.
  - destruct (Nat.eqb_spec a x); [congruence|]. apply (HG _ _ HP _ Hw). intros b Hb. rewrite <- (Ha b Hb). simpl.
    destruct (Nat.eqb_spec b y) as [->|]; [tauto|auto].
Qed.
Lemma G_exts xs : forall ys P k r r' vs vs', length xs = length ys -> length xs = length vs ->
  G P k r r' -> Forall2 (V k) vs vs' -> G (exts P xs ys) k (add_all r xs vs) (add_all r' ys vs').
Proof.
  induction xs as [|x xs IH]; intros [|y ys] P k r r' vs vs' Hl Hl' HG HV; simpl in *; try discriminate; auto.
  inversion HV; subst; simpl in *; [discriminate|]. apply IH; auto. apply G_ext; auto.
Qed.

Lemma rels P es es' : Forall2 (rel P) es es' -> forall k r r' i vs, G P k r r' -> i <= k -> evs i r es vs ->
  exists c vs', evs c r' es' vs' /\ Forall2 (V (k - i)) vs vs'.
Proof.
  induction 1 as [|e e' es es' He _ IH]; intros k r r' i vs HG Hi Hev.
  - apply evs_nil_inv in Hev as [-> ->]. exists 0, []. split; constructor.
  - apply evs_cons_inv in Hev as (i0 & j & w & ws & -> & -> & H2 & H3). destruct (He k r r' i0 _ HG ltac:(lia) H2) as (c1 & v' & E1 & V1).
    destruct (IH (k - i0) r r' j ws) as (c2 & vs' & E2 & V2); [eapply G_mono; [|eauto]; lia|lia|auto|].
    exists (c1 + c2), (v' :: vs'). split; [constructor; auto|]. constructor.
    + eapply V_mono; [|eauto]; lia.
    + eapply Vs_mono; [|eauto]; lia.
Qed.

(** ** Compatibility with every constructor *)
Lemma rel_name (P : pmap) x e' : P x e' -> rel P (EName x) e'.
Proof.
  intros HP k r r' i v HG Hi Hev. apply ev_name_inv in Hev as [-> H1].
  destruct (HG _ _ HP _ H1 r' (@agree_refl _ _)) as (c & v' & E & HV). exists c, v'. split; auto.
  eapply V_mono; [|eauto]; lia.
Qed.
Lemma rel_bool P b : rel P (EBool b) (EBool b).
Proof. intros k r r' i v _ _ H; inversion H; subst. exists 0, (VBool b). split; [constructor|apply V_bool]. Qed.
Lemma rel_int P b : rel P (EInt b) (EInt b).
Proof. intros k r r' i v _ _ H; inversion H; subst. exists 0, (VInt b). split; [constructor|apply V_int]. Qed.
Lemma rel_str P b : rel P (EString b) (EString b).
Proof. intros k r r' i v _ _ H; inversion H; subst. exists 0, (VStr b). split; [constructor|apply V_str]. Qed.
Lemma rel_trap P m t e' : rel P (ETrap m t) e'.
Proof. intros k r r' i v _ _ H; inversion H. Qed.
Lemma rel_pi_l P t e e' : rel P e e' -> rel P (EPi t e) e'.
Proof. intros H k r r' i v HG Hi Hev. inversion Hev; subst. eauto. Qed.
Lemma rel_pi_r P t e e' : rel P e e' -> rel P e (EPi t e').
Proof.
  intros H k r r' i v HG Hi Hev. destruct (H _ _ _ _ _ HG Hi Hev) as (c & v' & E & HV).
  exists c, v'. split; auto. constructor; auto.
Qed.
Lemma rel_piapp_l P t e e' : rel P e e' -> rel P (EPiApp e t) e'.
Proof. intros H k r r' i v HG Hi Hev. inversion Hev; subst. eauto. Qed.
Lemma rel_piapp_r P t e e' : rel P e e' -> rel P e (EPiApp e' t).
Proof.
  intros H k r r' i v HG Hi Hev. destruct (H _ _ _ _ _ HG Hi Hev) as (c & v' & E & HV).
  exists c, v'. split; auto. constructor; auto.
Qed.

Lemma rel_call P f f' es es' : rel P f f' -> Forall2 (rel P) es es' -> rel P (ECall f es) (ECall f' es').
Proof.
  intros Hf Hes k r r' i v HG Hi Hev. apply ev_call_inv in Hev as (i0 & j & m & ce & rc & ps & body & vs & -> & H1 & H3 & Hlen & H4).
  destruct (Hf k r r' i0 _ HG ltac:(lia) H1) as (c1 & fv' & E1 & V1).
  destruct (rels Hes (k := k - i0) (i := j) (G_mono (Nat.le_sub_l k i0) HG) ltac:(lia) H3) as (c2 & vs' & E2 & V2).
  apply V_fn_inv in V1 as (ce' & rc' & ps' & b' & -> & Hl & Hcl).
  destruct (Hcl (k - i0 - j - 1) m vs vs' v) as (c3 & v' & E3 & V3); auto; try lia.
  { eapply Vs_mono; [|exact V2]; lia. }
  exists (c1 + c2 + S c3), v'. split.
  - econstructor; eauto. apply Forall2_len in V2. congruence.
  - eapply V_mono; [|exact V3]. lia.
Qed.

Lemma rel_if P c t e c' t' e' : rel P c c' -> rel P t t' -> rel P e e' -> rel P (EIf c t e) (EIf c' t' e').
Proof.
  intros Hc Ht He k r r' i v HG Hi Hev. apply ev_if_inv in Hev as (i0 & j & b & -> & H3 & H6).
  destruct (Hc k r r' i0 _ HG ltac:(lia) H3) as (c1 & v1 & E1 & V1). apply V_bool_inv in V1 as ->.
  assert (Hx : rel P (if b then t else e) (if b then t' else e')) by (destruct b; auto).
  destruct (Hx (k - i0) r r' j _ (G_mono (Nat.le_sub_l k i0) HG) ltac:(lia) H6) as (c2 & v2 & E2 & V2).
  exists (c1 + c2), v2. split; [econstructor; eauto|]. eapply V_mono; [|exact V2]; lia.
Qed.

Lemma V_op k o x y : V k (eval_op o x y) (eval_op o x y).
Proof. destruct o; simpl; auto using V_int, V_bool. Qed.
Lemma rel_op P a o b a' b' : rel P a a' -> rel P b b' -> rel P (EOp a o b) (EOp a' o b').
Proof.
  intros Ha Hb k r r' i v HG Hi Hev. apply ev_op_inv in Hev as (i0 & j & x & y & -> & -> & H3 & H6).
  destruct (Ha k r r' i0 _ HG ltac:(lia) H3) as (c1 & v1 & E1 & V1). apply V_int_inv in V1 as ->.
  destruct (Hb (k - i0) r r' j _ (G_mono (Nat.le_sub_l k i0) HG) ltac:(lia) H6) as (c2 & v2 & E2 & V2). apply V_int_inv in V2 as ->.
  exists (c1 + c2), (eval_op o x y). split; [econstructor; eauto|apply V_op].
Qed.

Lemma V_intr k i vs vs' v : Forall2 (V k) vs vs' -> intr_val i vs = Some v -> intr_val i vs' = Some v /\ V k v v.
Proof.
  intros H E. destruct i; simpl in E; repeat match type of E with context [match ?x with _ => _ end] => destruct x; try discriminate E end;
    injection E as <-;
    repeat match goal with H : Forall2 _ (_ :: _) _ |- _ => inversion H; clear H; subst | H : Forall2 _ [] _ |- _ => inversion H; clear H; subst end;
    repeat match goal with H : V _ (VInt _) _ |- _ => apply V_int_inv in H as -> | H : V _ (VStr _) _ |- _ => apply V_str_inv in H as -> end;
    auto using V_int, V_str.
Qed.

Lemma Forall2_app_inv_l' {A B} (R : A -> B -> Prop) l1 l2 l' : Forall2 R (l1 ++ l2) l' ->
  exists m1 m2, l' = m1 ++ m2 /\ Forall2 R l1 m1 /\ Forall2 R l2 m2.
Proof. intros H. apply Forall2_app_inv_l in H as (m1 & m2 & H1 & H2 & ->). eauto. Qed.

Lemma rel_intr P i es es' : Forall2 (rel P) es es' -> rel P (EIntr i es) (EIntr i es').
Proof.
  intros Hes k r r' n v HG Hi Hev. apply ev_intr_inv in Hev as (xs & rest & vs & -> & H2 & H4 & H5).
  apply Forall2_app_inv_l' in Hes as (m1 & m2 & -> & Hm1 & Hm2).
  destruct (rels Hm1 HG Hi H4) as (c & vs' & E & HV).
  destruct (@V_intr _ _ _ _ _ HV H5) as [Ev Vv]. exists c, v. split; auto.
  econstructor; eauto. rewrite <- H2. apply Forall2_len in Hm1. congruence.
Qed.

Lemma rel_construct P c tys tys' es es' : Forall2 (rel P) es es' -> rel P (EConstruct c tys es) (EConstruct c tys' es').
Proof.
  intros Hes k r r' n v HG Hi Hev. apply ev_construct_inv in Hev as (vs & -> & H4 & H5).
  destruct (rels Hes HG Hi H4) as (c1 & vs' & E & HV). exists c1, (VComp c vs'). split; [|apply V_comp; auto].
  constructor; auto. apply Forall2_len in HV. lia.
Qed.

Lemma rel_lam P ps ps' b b' : length ps = length ps' -> rel (exts P (map fst ps) (map fst ps')) b b' ->
  rel P (ELam ps b) (ELam ps' b').
Proof.
  intros Hl Hb k r r' i v HG Hi Hev. apply ev_lam_inv in Hev as [-> ->].
  exists 0, (VFn r' None (map fst ps') b'). split; [constructor|]. apply V_fn; [rewrite !map_length; auto|].
  intros j i args args' w Hj Hij Ha Hla He. simpl in *. eapply Hb; eauto.
  apply G_exts; auto; [rewrite !map_length; auto|]. eapply G_mono; [|eauto]. lia.
Qed.

Definition rel_br (P : pmap) (br br' : name * list name * expr) : Prop :=
  fst (fst br) = fst (fst br') /\ length (snd (fst br)) = length (snd (fst br')) /\
  rel (exts P (snd (fst br)) (snd (fst br'))) (snd br) (snd br').

Lemma find_branch_rel P c brs brs' bs b : Forall2 (rel_br P) brs brs' -> find_branch c brs = Some (bs, b) ->
  exists bs' b', find_branch c brs' = Some (bs', b') /\ length bs = length bs' /\ rel (exts P bs bs') b b'.
Proof.
  induction 1 as [|[[c1 bs1] b1] [[c2 bs2] b2] brs brs' (E1 & E2 & E3) _ IH]; simpl in *; [discriminate|].
  subst c2. destruct (Nat.eqb c1 c); [|apply IH]. intros E. injection E as <- <-. eauto.
Qed.

Lemma rel_match P d d' brs brs' : rel P d d' -> Forall2 (rel_br P) brs brs' -> rel P (EMatch d brs) (EMatch d' brs').
Proof.
  intros Hd Hbrs k r r' i v HG Hi Hev. apply ev_match_inv in Hev as (i0 & j & c & fs & bs & b & -> & H1 & H3 & H5 & H6).
  destruct (Hd k r r' i0 _ HG ltac:(lia) H1) as (c1 & v1 & E1 & V1). apply V_comp_inv in V1 as (fs' & -> & Hfs).
  destruct (find_branch_rel _ Hbrs H3) as (bs' & b' & Eb & Hl & Hb).
  destruct (Hb (k - i0) (add_all r bs fs) (add_all r' bs' fs') j v) as (c2 & v2 & E2 & V2); auto; [|lia|].
  { apply G_exts; auto. eapply G_mono; [|eauto]; lia. }
  exists (c1 + c2), v2. split; [|eapply V_mono; [|exact V2]; lia].
  econstructor; eauto. apply Forall2_len in Hfs. congruence.
Qed.

Lemma rel_let P x y a a' b b' : rel P a a' -> rel (ext P x y) b b' -> rel P (ELet x a b) (ELet y a' b').
Proof.
  intros Ha Hb k r r' i v HG Hi Hev. apply ev_let_inv in Hev as (i0 & j & va & -> & H4 & H5).
  destruct (Ha k r r' i0 _ HG ltac:(lia) H4) as (c1 & v1 & E1 & V1).
  destruct (Hb (k - i0) ((x, va) :: r) ((y, v1) :: r') j v) as (c2 & v2 & E2 & V2); auto; [|lia|].
  { apply G_ext; auto. eapply G_mono; [|eauto]; lia. }
  exists (c1 + c2), v2. split; [econstructor; eauto|]. eapply V_mono; [|exact V2]; lia.
Qed.

Lemma V_rec P ps ps' x y b b' : length ps = length ps' -> rel (ext (exts P ps ps') x y) b b' ->
  forall k r r', G P k r r' -> V k (VFn r (Some x) ps b) (VFn r' (Some y) ps' b').
Proof.
  intros Hl Hb k. induction k as [k IH] using lt_wf_ind. intros r r' HG. apply V_fn; auto.
  intros j i args args' w Hj Hi Ha Hla He. simpl in *. eapply Hb; eauto.
  apply G_ext.
  - apply G_exts; auto. eapply G_mono; [|eauto]. lia.
  - apply IH; auto. eapply G_mono; [|eauto]. lia.
Qed.

Lemma rel_letrec P x y t t' a a' ps ps' f f' b b' :
  strip_pis a = ELam ps f -> strip_pis a' = ELam ps' f' -> length ps = length ps' ->
  rel (ext (exts P (map fst ps) (map fst ps')) x y) f f' -> rel (ext P x y) b b' ->
  rel P (ELetRec x t a b) (ELetRec y t' a' b').
Proof.
  intros Ea Ea' Hl Hf Hb k r r' i v HG Hi Hev. apply ev_letrec_inv in Hev as (ps0 & f0 & H5 & H6).
  rewrite Ea in H5. injection H5 as <- <-.
  destruct (Hb k ((x, VFn r (Some x) (map fst ps) f) :: r) ((y, VFn r' (Some y) (map fst ps') f') :: r') i v)
    as (c & v' & E & HV); auto.
  { apply G_ext; auto. eapply V_rec; eauto. rewrite !map_length; auto. }
  exists c, v'. split; auto. econstructor; eauto.
Qed.
Lemma rel_letrec_bad P x t a b e' : (forall ps f, strip_pis a <> ELam ps f) -> rel P (ELetRec x t a b) e'.
Proof. intros H k r r' i v _ _ Hev. apply ev_letrec_inv in Hev as (ps0 & f0 & H5 & H6). exfalso. eapply H; eauto. Qed.

(** ** Identity *)
Definition idP : pmap := fun x e' => e' = EName x.
Definition idS (S : list name) : pmap := fun x e' => In x S /\ e' = EName x.

Lemma ext_id S S' x : (forall a, In a S' -> a = x \/ In a S) -> forall a e, idS S' a e -> ext (idS S) x x a e.
Proof.
  intros H a e [Ha ->]. destruct (Nat.eq_dec a x) as [->|Hn]; [left; auto|right]. split; auto.
  destruct (H _ Ha); [tauto|]. split; [simpl; intros [?|[]]; congruence|split; auto].
Qed.
Lemma exts_id xs : forall S S', (forall a, In a S' -> In a xs \/ In a S) -> forall a e, idS S' a e -> exts (idS S) xs xs a e.
Proof.
  induction xs as [|x xs IH]; intros S S' H a e Hi; simpl.
  - destruct Hi as [Ha ->]. destruct (H _ Ha) as [[]|?]. split; auto.
  - eapply exts_sub with (P := idS (x :: S)).
    + apply ext_id. intros b [->|Hb]; auto.
    + eapply IH; [|exact Hi]. intros b Hb. destruct (H _ Hb) as [[->|?]|?]; simpl; auto.
Qed.

Lemma rel_refl_S e : forall S, (forall x, In x (fv e) -> In x S) -> rel (idS S) e e.
Proof.
  assert (HL : forall es, Forall (fun e => forall S, (forall x, In x (fv e) -> In x S) -> rel (idS S) e e) es ->
             forall S, (forall x, In x (flat_map fv es) -> In x S) -> Forall2 (rel (idS S)) es es).
  { induction 1 as [|e' es He _ IH]; intros S HS; constructor.
    - apply He. intros x Hx. apply HS. simpl. apply in_or_app; auto.
    - apply IH. intros x Hx. apply HS. simpl. apply in_or_app; auto. }
  induction e using expr_ind_rec; intros S HS; cbn [fv] in HS.
  - apply rel_bool.
  - apply rel_int.
  - apply rel_str.
  - apply rel_name. split; auto. apply HS; simpl; auto.
  - apply rel_call; [apply IHe|apply HL; auto]; intros x Hx; apply HS; apply in_or_app; auto.
  - apply rel_if; [apply IHe1|apply IHe2|apply IHe3]; intros x Hx; apply HS; rewrite !in_app_iff; auto.
  - apply rel_op; [apply IHe1|apply IHe2]; intros x Hx; apply HS; rewrite !in_app_iff; auto.
  - apply rel_intr. apply HL; auto.
  - apply rel_lam; auto. eapply rel_sub; [|apply IHe].
    + apply exts_id with (S' := map fst ps ++ S). intros a Ha. apply in_app_iff in Ha; auto.
    + intros x Hx. apply in_app_iff. destruct (in_dec Nat.eq_dec x (map fst ps)); auto. right. apply HS. apply in_minus; auto.
  - apply rel_match; [apply IHe; intros x Hx; apply HS; apply in_or_app; auto|].
    assert (HS' : forall x, In x (flat_map (fun br => minus (fv (snd br)) (snd (fst br))) brs) -> In x S)
      by (intros x Hx; apply HS; apply in_or_app; auto).
    clear HS IHe. induction H as [|[[c bs] b] brs Hb _ IH]; constructor.
    + repeat split; auto. simpl in *. eapply rel_sub; [|apply Hb].
      * apply exts_id with (S' := bs ++ S). intros a Ha. apply in_app_iff in Ha; auto.
      * intros x Hx. apply in_app_iff. destruct (in_dec Nat.eq_dec x bs); auto. right. apply HS'. apply in_app_iff; left. apply in_minus; auto.
    + apply IH. intros x Hx; apply HS'; simpl; apply in_or_app; auto.
  - apply rel_construct. apply HL; auto.
  - apply rel_let; [apply IHe1; intros x Hx; apply HS; apply in_or_app; auto|].
    eapply rel_sub; [|apply IHe2].
    + apply ext_id with (S' := n :: S). intros a [->|Ha]; auto.
    + intros x Hx. destruct (Nat.eq_dec x n) as [->|]; [left; auto|right]. apply HS. apply in_or_app; right.
      apply in_minus. split; auto. simpl. intuition congruence.
  - destruct (strip_pis e1) as [| | | | | | | |ps f| | | | | | |] eqn:Es; try (apply rel_letrec_bad; intros; congruence).
    assert (Hfv : forall x, In x (fv f) -> In x (map fst ps) \/ In x (fv e1)).
    { intros x Hx. destruct (in_dec Nat.eq_dec x (map fst ps)); auto. right. rewrite <- fv_strip, Es. simpl. apply in_minus; auto. }
    eapply rel_letrec; eauto.
    + eapply rel_sub; [|eapply (H _ _ eq_refl)].
      * intros a e0 He0. eapply ext_sub; [|eapply ext_id with (S' := n :: map fst ps ++ S); [|exact He0]].
        -- apply exts_id. intros b Hb. instantiate (1 := map fst ps ++ S) in Hb. apply in_app_iff in Hb; auto.
        -- intros b [->|Hb]; auto.
      * intros x Hx. simpl. rewrite in_app_iff. destruct (Nat.eq_dec x n) as [->|Hn]; auto.
        destruct (Hfv _ Hx); auto. right; right. apply HS. apply in_minus. rewrite in_app_iff. split; auto. simpl; intuition congruence.
    + eapply rel_sub; [|apply IHe2].
      * apply ext_id with (S' := n :: S). intros a [->|Ha]; auto.
      * intros x Hx. destruct (Nat.eq_dec x n) as [->|]; [left; auto|right]. apply HS.
        apply in_minus. rewrite in_app_iff. split; auto. simpl. intuition congruence.
  - apply rel_pi_l, rel_pi_r; auto.
  - apply rel_piapp_l, rel_piapp_r; auto.
  - apply rel_trap.
Qed.

Lemma rel_refl_fv e : rel (idS (fv e)) e e.
Proof. apply rel_refl_S; auto. Qed.
Lemma rel_refl e : rel idP e e.
Proof. eapply rel_sub; [|apply rel_refl_fv]. intros x e' [_ ->]. reflexivity. Qed.

Lemma idP_ext x : forall a e, idP a e -> ext idP x x a e.
Proof.
  intros a e ->. destruct (Nat.eq_dec a x) as [->|]; [left; auto|right]. repeat split; auto. simpl; intuition congruence.
Qed.
Lemma idP_exts xs : forall a e, idP a e -> exts idP xs xs a e.
Proof.
  induction xs as [|x xs IH]; intros a e H; simpl; auto. eapply exts_sub; [|apply IH; eauto]. apply idP_ext.
Qed.

Lemma V_refl k : forall v, V k v v.
Proof.
  induction k as [k IHk] using lt_wf_ind. intros v. induction v using value_ind'; auto using V_int, V_bool, V_str.
  - apply V_comp. induction H; auto.
  - assert (HG : forall j r, j < k -> G idP j r r).
    { intros j r0 Hj x e' -> v Hv r'' Ha. exists 0, v. split; [|apply IHk; auto]. constructor. rewrite <- (Ha x) by (simpl; auto); auto. }
    apply V_fn; auto. intros j i args args' w Hj Hi Ha Hl He. refine (@rel_refl b j _ _ i w _ Hi He).
    assert (HA : G idP j (add_all en ps args) (add_all en ps args')).
    { eapply G_sub; [|apply G_exts; [reflexivity|exact Hl|apply (HG j en Hj)|exact Ha]]. apply idP_exts. }
    destruct r as [x|]; simpl; auto. eapply G_sub; [|apply G_ext; [exact HA|apply IHk; auto]]. apply idP_ext.
Qed.

Lemma Vs_refl k vs : Forall2 (V k) vs vs.
Proof. induction vs; constructor; auto using V_refl. Qed.

Lemma G_id k r : G idP k r r.
Proof.
  intros x e' -> v Hv r'' Ha. exists 0, v. split; [|apply V_refl; auto]. constructor. rewrite <- (Ha x) by (simpl; auto); auto.
Qed.
Lemma G_idS_agree S k r r' : agree S r r' -> G (idS S) k r r'.
Proof.
  intros H x e' [Hx ->] v Hv r'' Ha. exists 0, v. split; [|apply V_refl; auto]. constructor.
  rewrite <- (Ha x), <- H by (simpl; auto); auto.
Qed.

(** ** Transitivity *)
Lemma V_trans k : forall v1 v2 v3, V k v1 v2 -> (forall j, V j v2 v3) -> V k v1 v3.
Proof.
  induction k as [k IHk] using lt_wf_ind. intros v1. induction v1 using value_ind'; intros v2 v3 H12 H23.
  - apply V_int_inv in H12 as ->; auto.
  - apply V_bool_inv in H12 as ->; auto.
  - apply V_str_inv in H12 as ->; auto.
  - apply V_comp_inv in H12 as (f2 & -> & H12). destruct (@V_comp_inv _ _ _ _ (H23 0)) as (f3 & -> & _).
    assert (H3 : forall j, Forall2 (V j) f2 f3).
    { intros j. destruct (@V_comp_inv _ _ _ _ (H23 j)) as (f3' & E & Hf). injection E as <-. auto. }
    clear H23. apply V_comp. revert f2 f3 H12 H3.
    induction H as [|v fs Hv _ IH]; intros f2 f3 H12 H3; inversion H12; subst.
    + specialize (H3 0); inversion H3; subst; constructor.
    + pose proof (H3 0) as H30. inversion H30; subst. constructor.
      * eapply Hv; eauto. intros j. specialize (H3 j). inversion H3; auto.
      * eapply IH; eauto. intros j. specialize (H3 j). inversion H3; auto.
  - apply V_fn_inv in H12 as (e2 & r2 & p2 & b2 & -> & Hl2 & H12).
    destruct (@V_fn_inv _ _ _ _ _ _ (H23 0)) as (e3 & r3 & p3 & b3 & -> & Hl3 & _).
    apply V_fn; [congruence|]. intros j i args args' w Hj Hi Ha Hla He.
    destruct (H12 j i args args' w) as (c2 & w2 & E2 & V2); auto.
    assert (Hex : forall j', exists c3 w3, ev c3 (call_env e3 r3 p3 b3 args') b3 w3 /\ V j' w2 w3).
    { intros j'. destruct (@V_fn_inv _ _ _ _ _ _ (H23 (S (j' + c2)))) as (e3' & r3' & p3' & b3' & E & _ & H3). injection E as <- <- <- <-.
      destruct (H3 (j' + c2) c2 args' args' w2) as (c3 & w3 & E3 & V3); auto; try lia.
      - apply Vs_refl.
      - rewrite <- Hl2. apply Forall2_len in Ha. congruence.
      - exists c3, w3. split; auto. eapply V_mono; [|exact V3]; lia. }
    destruct (Hex 0) as (c3 & w3 & E3 & _). exists c3, w3. split; auto.
    apply (IHk (j - i)) with (v2 := w2); [lia|auto|].
    intros j'. destruct (Hex j') as (c4 & w4 & E4 & V4). rewrite (ev_det E3 E4). auto.
Qed.

Lemma G_trans k r1 r2 r3 : G idP k r1 r2 -> (forall j, G idP j r2 r3) -> G idP k r1 r3.
Proof.
  intros H1 H2 x e' -> v Hv r'' Ha. destruct (H1 x _ eq_refl v Hv r2 (@agree_refl _ _)) as (c & v2 & E & HV).
  inversion E; subst. assert (Hex : forall j, exists v', lookup x r'' = Some v' /\ V j v2 v').
  { intros j. destruct (H2 j x _ eq_refl v2 H4 r'' Ha) as (c' & v' & E' & HV'). inversion E'; subst. eauto. }
  destruct (Hex 0) as (v' & Hv' & _). exists 0, v'. split; [constructor; auto|]. eapply V_trans; eauto.
  intros j. destruct (Hex j) as (v'' & Hv'' & HV''). congruence.
Qed.

Lemma rel_trans P e1 e2 e3 : rel P e1 e2 -> rel idP e2 e3 -> rel P e1 e3.
Proof.
  intros H12 H23 k r r' i v HG Hi Hev.
  destruct (H12 k r r' i v HG Hi Hev) as (c2 & v2 & E2 & V2).
  assert (Hex : forall j, exists c3 v3, ev c3 r' e3 v3 /\ V j v2 v3).
  { intros j. destruct (H23 (j + c2) r' r' c2 v2) as (c3 & v3 & E3 & V3); auto using G_id; try lia.
    exists c3, v3; split; auto. eapply V_mono; [|exact V3]; lia. }
  destruct (Hex 0) as (c3 & v3 & E3 & _). exists c3, v3. split; auto.
  eapply V_trans; eauto. intros j. destruct (Hex j) as (c4 & v4 & E4 & V4). rewrite (ev_det E3 E4). auto.
Qed.

(** ** Congruence for the identity map *)
Lemma cong_lam ps b b' : rel idP b b' -> rel idP (ELam ps b) (ELam ps b').
Proof. intros H. apply rel_lam; auto. eapply rel_sub; [|exact H]. apply idP_exts. Qed.
Lemma cong_let x a a' b b' : rel idP a a' -> rel idP b b' -> rel idP (ELet x a b) (ELet x a' b').
Proof. intros Ha Hb. apply rel_let; auto. eapply rel_sub; [|exact Hb]. apply idP_ext. Qed.
Lemma cong_pi t t' e e' : rel idP e e' -> rel idP (EPi t e) (EPi t' e').
Proof. intros; apply rel_pi_l, rel_pi_r; auto. Qed.
Lemma cong_piapp t t' e e' : rel idP e e' -> rel idP (EPiApp e t) (EPiApp e' t').
Proof. intros; apply rel_piapp_l, rel_piapp_r; auto. Qed.
Lemma cong_match d d' brs brs' : rel idP d d' ->
  Forall2 (fun br br' => fst br = fst br' /\ rel idP (snd br) (snd br')) brs brs' ->
  rel idP (EMatch d brs) (EMatch d' brs').
Proof.
  intros Hd H. apply rel_match; auto. eapply Forall2_weak; [|exact H]. intros [[c bs] b] [[c' bs'] b'] [E Hr].
  simpl in *. injection E as <- <-. repeat split; auto. simpl. eapply rel_sub; [|exact Hr]. apply idP_exts.
Qed.
(** The function of a recursive definition is related through its stripped body. *)
Lemma cong_letrec x t t' a a' ps ps' f f' b b' :
  strip_pis a = ELam ps f -> strip_pis a' = ELam ps' f' -> map fst ps = map fst ps' -> rel idP f f' -> rel idP b b' ->
  rel idP (ELetRec x t a b) (ELetRec x t' a' b').
Proof.
  intros Ea Ea' Hl Hf Hb. eapply rel_letrec; eauto.
  - rewrite <- (map_length fst ps), Hl, map_length; auto.
  - eapply rel_sub; [|exact Hf]. intros y e He. rewrite <- Hl. eapply ext_sub; [|apply idP_ext; exact He]. apply idP_exts.
  - eapply rel_sub; [|exact Hb]. apply idP_ext.
Qed.
