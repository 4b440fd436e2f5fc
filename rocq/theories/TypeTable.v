(** The tables the generator keeps about a type it has generated. *)
From Verif Require Import FoldSpec GenSpec GenFacts GenNames CompileCorrect.
Set Implicit Arguments.

(** Computations that leave a part of the state alone. *)
Section Keeps.
  Context {X : Type} (pi : gst -> X).
  Definition keepsp {A} (m : gen A) : Prop := forall s a s', m s = Some (a, s') -> pi s' = pi s.
  Lemma kp_bind {A B} (m : gen A) (f : A -> gen B) : keepsp m -> (forall a, keepsp (f a)) -> keepsp (gbind m f).
  Proof. intros H1 H2 s b s' H. apply gbind_some in H as (a & s1 & E1 & E2). apply H1 in E1. apply H2 in E2. congruence. Qed.
  Lemma kp_ret {A} (a : A) : keepsp (gret a).
  Proof. intros s b s' H. injection H as <- <-. auto. Qed.
  Lemma kp_get {A} (f : gst -> option A) : keepsp (gget f).
  Proof. intros s b s' H. apply gget_some in H as [_ ->]. auto. Qed.
  Lemma kp_mod f : (forall s, pi (f s) = pi s) -> keepsp (gmod f).
  Proof. intros Hf s b s' H. injection H as <- <-. auto. Qed.
  Lemma kp_fresh : (forall s n, pi (up_nn s n) = pi s) -> keepsp fresh_name.
  Proof. intros Hf s b s' H. injection H as <- <-. auto. Qed.
  Lemma kp_tv : (forall s n, pi (up_nt s n) = pi s) -> keepsp fresh_tv.
  Proof. intros Hf s b s' H. injection H as <- <-. auto. Qed.
  Lemma kp_map {A B} (f : A -> gen B) l : (forall a, keepsp (f a)) -> keepsp (gmap f l).
  Proof. intros Hf. induction l; simpl; [apply kp_ret|]. apply kp_bind; [auto|]. intros. apply kp_bind; [auto|]. intros; apply kp_ret. Qed.
End Keeps.
Ltac kp := repeat match goal with
  | |- keepsp _ (gbind _ _) => apply kp_bind; [|intros]
  | |- keepsp _ (gret _) => apply kp_ret
  | |- keepsp _ (gget _) => apply kp_get
  | |- keepsp _ (gmod _) => apply kp_mod; intros
  | |- keepsp _ fresh_name => apply kp_fresh; intros
  | |- keepsp _ fresh_tv => apply kp_tv; intros
  | |- keepsp _ (gmap _ _) => apply kp_map; intros
  | |- keepsp _ (match ?b with _ => _ end) => destruct b
  | |- keepsp _ (gen_name _) => unfold gen_name
  | |- keepsp _ (fresh_inst _) => unfold fresh_inst
  | |- keepsp _ (tv_of _) => unfold tv_of
  | |- keepsp _ (gen_ty _) => unfold gen_ty
  | |- keepsp _ (field_ty _ _) => unfold field_ty
  | |- keepsp _ (inst_ty _ _) => unfold inst_ty
  end; auto.

(** The part of [gen_ctor] before its last update. *)
Definition upd_ctor (functor : bool) (x : sym) (cn : name) (l : list (sym * ctor)) : list (sym * ctor) :=
  (x, match lookup x l with
      | Some c => if functor then set_folded c cn else set_regular c cn
      | None => mkCtor x cn cn
      end) :: l.
Definition acts {A} (m : gen A) (F : list (sym * ctor) -> list (sym * ctor)) : Prop :=
  forall s u s', m s = Some (u, s') -> g_ctors s' = F (g_ctors s).
Lemma acts_bind {A B} (m : gen A) (f : A -> gen B) F : keepsp g_ctors m -> (forall a, acts (f a) F) -> acts (gbind m f) F.
Proof. intros H1 H2 s u s' H. apply gbind_some in H as (a & s1 & E1 & E2). apply H1 in E1. apply H2 in E2. congruence. Qed.
Lemma gen_ctor_ctors functor dt params cn x fs : acts (gen_ctor functor dt params cn x fs) (upd_ctor functor x cn).
Proof.
  unfold gen_ctor. repeat (apply acts_bind; [kp; destruct functor; auto|intros]).
  intros s u s' H. injection H as <- <-. auto.
Qed.
Lemma gen_ctor_fields functor dt params cn x fs : keepsp g_fields (gen_ctor functor dt params cn x fs).
Proof. unfold gen_ctor. kp; destruct functor; auto. Qed.
Lemma gen_ctor_folded functor dt params cn x fs : keepsp g_folded (gen_ctor functor dt params cn x fs).
Proof. unfold gen_ctor. kp; destruct functor; auto. Qed.
Lemma gen_ctor_tyctors functor dt params cn x fs : keepsp g_tyctors (gen_ctor functor dt params cn x fs).
Proof. unfold gen_ctor. kp; destruct functor; auto. Qed.
Lemma gen_ctor_types functor dt params cn x fs : keepsp g_types (gen_ctor functor dt params cn x fs).
Proof. unfold gen_ctor. kp; destruct functor; auto. Qed.
Lemma gen_ctor_names dt params cn x fs : keepsp g_names (gen_ctor true dt params cn x fs).
Proof. unfold gen_ctor. kp. Qed.
Lemma gen_ctor_name_other y dt params cn x fs : y <> x -> keepsp (fun s => lookup y (g_names s)) (gen_ctor false dt params cn x fs).
Proof. intros H. unfold gen_ctor. kp. simpl. destruct (Nat.eqb_spec y x); congruence. Qed.

(** All constructors of a type. *)
Definition gen_ctors functor dt params (l : list ((sym * list (option sty)) * (name * list ty))) : gen (list unit) :=
  gmap (fun cc => gen_ctor functor dt params (fst (snd cc)) (fst (fst cc)) (snd (fst cc))) l.
Lemma gen_ctors_lookup functor dt params l : forall s us s', gen_ctors functor dt params l s = Some (us, s') ->
  NoDup (map (fun cc => fst (fst cc)) l) ->
  (forall y, ~ In y (map (fun cc => fst (fst cc)) l) -> lookup y (g_ctors s') = lookup y (g_ctors s)) /\
  Forall (fun cc => lookup (fst (fst cc)) (g_ctors s') =
            Some match lookup (fst (fst cc)) (g_ctors s) with
                 | Some c => if functor then set_folded c (fst (snd cc)) else set_regular c (fst (snd cc))
                 | None => mkCtor (fst (fst cc)) (fst (snd cc)) (fst (snd cc))
                 end) l.
Proof.
  unfold gen_ctors. induction l as [|cc l IH]; simpl; intros s us s' H Hn; gb; [auto|].
  inversion Hn as [|? ? Hx Hn']; subst.
  match goal with H : gen_ctor _ _ _ _ _ _ _ = Some _ |- _ => apply gen_ctor_ctors in H end.
  match goal with H : gmap _ _ _ = Some _ |- _ => apply IH in H as [K F] end; auto.
  match goal with H : g_ctors _ = upd_ctor _ _ _ _ |- _ => rewrite H in K, F end. unfold upd_ctor in *. split.
  - intros y Hy. rewrite K by tauto. simpl. destruct (Nat.eqb_spec y (fst (fst cc))); [subst; tauto|auto].
  - constructor.
    + rewrite K by auto. simpl. rewrite Nat.eqb_refl. auto.
    + rewrite Forall_forall in *. intros c Hc. rewrite F by auto. simpl.
      destruct (Nat.eqb_spec (fst (fst c)) (fst (fst cc))) as [Q|_]; auto. exfalso. apply Hx. rewrite <- Q. apply in_map_iff. eauto.
Qed.

Lemma pure_get {A C} (f : A -> gen C) l : (forall a s c s', f a s = Some (c, s') -> s' = s) ->
  forall s cs s', gmap f l s = Some (cs, s') -> s' = s /\ Forall2 (fun a c => f a s = Some (c, s)) l cs.
Proof.
  intros Hf. induction l as [|a l IH]; simpl; intros s cs s' H; gb; auto.
  pose proof (Hf _ _ _ _ E). subst. match goal with H : gmap _ _ _ = Some _ |- _ => apply IH in H as [-> F] end. auto.
Qed.
Lemma field_pure t f s c s' : field_ty t f s = Some (c, s') -> s' = s.
Proof. destruct f; simpl; intros H; gb; auto. Qed.
Lemma f2_impl {A B} (R Q : A -> B -> Prop) l l' : (forall a b, R a b -> Q a b) -> Forall2 R l l' -> Forall2 Q l l'.
Proof. intros H. induction 1; auto. Qed.
Lemma f2_length {A B} (R : A -> B -> Prop) l l' : Forall2 R l l' -> length l = length l'.
Proof. induction 1; simpl; auto. Qed.
(** The constructors of the type definition. *)
Lemma cases_names self (l : list (sym * list (option sty))) : forall s cs s',
  gmap (fun c : sym * list (option sty) => n <-- fresh_name ;; ts <-- gmap (field_ty self) (snd c) ;; gret (n, ts)) l s = Some (cs, s') ->
  length cs = length l /\ seg (g_nn s) (g_nn s') (map fst cs) /\ g_nn s <= g_nn s' /\
  Forall2 (fun c d => length (snd d) = length (snd c)) l cs.
Proof.
  induction l as [|a l IH]; simpl; intros s cs s' H; gb; [auto using seg_nil|].
  apply pure_get in E2 as [-> HF]; [|apply field_pure]. apply f2_length in HF.
  match goal with H : gmap _ l _ = Some _ |- _ => apply IH in H as (H1 & [W1 W2] & Hn & HF2) end. simpl in *.
  split; [auto|]. split; [split|split; [lia|constructor; auto]].
  - constructor; auto. intros Hin. rewrite Forall_forall in W2. apply W2 in Hin. lia.
  - constructor; [lia|]. eapply Forall_impl; [|exact W2]. simpl. lia.
Qed.

Lemma combine_fst' {A C} (l : list A) : forall l' : list C, length l = length l' -> map fst (combine l l') = l.
Proof. induction l; destruct l'; simpl; intros H; try discriminate; auto. f_equal. auto. Qed.
Definition nn_grows {A} (m : gen A) : Prop := forall s a s', m s = Some (a, s') -> g_nn s <= g_nn s'.
Lemma nn_bind {A B} (m : gen A) (f : A -> gen B) : nn_grows m -> (forall a, nn_grows (f a)) -> nn_grows (gbind m f).
Proof. intros H1 H2 s b s' H. apply gbind_some in H as (a & s1 & E1 & E2). apply H1 in E1. apply H2 in E2. lia. Qed.
Lemma nn_keep {A} (m : gen A) : keepsp g_nn m -> nn_grows m.
Proof. intros H s a s' E. apply H in E. lia. Qed.
Lemma nn_fresh : nn_grows fresh_name.
Proof. intros s a s' H. injection H as <- <-. simpl. lia. Qed.
Lemma nn_map {A B} (f : A -> gen B) l : (forall a, nn_grows (f a)) -> nn_grows (gmap f l).
Proof.
  intros Hf. induction l; simpl; [apply nn_keep, kp_ret|]. apply nn_bind; [auto|]. intros. apply nn_bind; [auto|].
  intros; apply nn_keep, kp_ret.
Qed.
Lemma gen_ctor_nn functor dt params cn x fs : nn_grows (gen_ctor functor dt params cn x fs).
Proof.
  unfold gen_ctor. repeat (apply nn_bind; [|intros]); try (apply nn_keep; kp; destruct functor; auto; fail).
  - destruct functor; [apply nn_fresh|]. unfold gen_name. apply nn_bind; [apply nn_fresh|]. intros. apply nn_keep. kp.
  - apply nn_map. intros. apply nn_fresh.
Qed.

Record type_made (functor : bool) (x : sym) (cases : list (sym * list (option sty))) (s s' : gst)
       (dt : name) (vars : list tyvar) (cs : list (name * list ty)) (tcs : list ctor) : Prop := mkMade {
  m_types : g_types s' = g_types s ++ [mkTyDef dt vars cs];
  m_seg : seg (g_nn s) (g_nn s') (dt :: map fst cs);
  m_nn : g_nn s <= g_nn s';
  m_cases : Forall2 (fun c d => length (snd d) = length (snd c)) cases cs;
  m_names : lookup x (g_names s') = (if functor then lookup x (g_names s) else Some dt);
  m_folded : lookup x (g_folded s') = (if functor then Some dt else lookup x (g_folded s));
  m_fields : g_fields s' = g_fields s;
  m_tcs : Forall2 (fun c k => lookup (fst c) (g_ctors s') = Some k) cases tcs;
  m_upd : Forall2 (fun c d => lookup (fst c) (g_ctors s') =
            Some match lookup (fst c) (g_ctors s) with
                 | Some k => if functor then set_folded k (fst d) else set_regular k (fst d)
                 | None => mkCtor (fst c) (fst d) (fst d)
                 end) cases cs;
  m_tyctors : lookup dt (g_tyctors s') = Some tcs;
  m_other : forall n, lookup x (if functor then g_names s else g_folded s) = Some n -> lookup n (g_tyctors s') = Some tcs }.

Lemma gen_type_made functor x params cases s u s' : gen_type_item functor x params cases s = Some (u, s') ->
  NoDup (x :: map fst cases) -> exists dt vars cs tcs, type_made functor x cases s s' dt vars cs tcs.
Proof.
  unfold gen_type_item. intros H Hnd. inversion Hnd as [|? ? Hx Hnd']; subst.
  apply gbind_some in H as (dt & s1 & E1 & H). apply gbind_some in H as (vars & s2 & E2 & H).
  apply gbind_some in H as (fv & s3 & E3 & H). apply gbind_some in H as (cs & s4 & E4 & H).
  apply gbind_some in H as (us & s5 & E5 & H). apply gbind_some in H as (tcs & s6 & E6 & H).
  apply gbind_some in H as ([] & s7 & E7 & H). apply gbind_some in H as ([] & s8 & E8 & H).
  pose proof (cases_names _ _ _ E4) as (L4 & W4 & N4 & F4).
  fold (gen_ctors functor dt params (combine cases cs)) in E5.
  assert (EM : map (fun cc : (sym * list (option sty)) * (name * list ty) => fst (fst cc)) (combine cases cs) = map fst cases).
  { rewrite <- (map_map fst fst). f_equal. apply combine_fst'. auto. }
  assert (Hnd5 := Hnd'). rewrite <- EM in Hnd5.
  destruct (@gen_ctors_lookup _ _ _ _ _ _ _ E5 Hnd5) as [K5 F5]. rewrite EM in K5.
  apply pure_get in E6 as [-> F6]; [|intros ? ? ? ? Hg; apply gget_some in Hg as [_ ->]; auto].
  injection E7 as <-. injection E8 as <-. injection H as <- <-.
  (* what each stage keeps *)
  assert (A2 : forall {X} (pi : gst -> X), (forall t n, pi (up_nt t n) = pi t) -> (forall t l, pi (up_tvs t l) = pi t) -> pi s2 = pi s1).
  { intros X pi H1 H2. eapply kp_map; [|exact E2]. intros v. cbv beta. kp. }
  assert (A3 : forall {X} (pi : gst -> X), (forall t n, pi (up_nt t n) = pi t) -> pi s3 = pi s2).
  { intros X pi H1. destruct functor; gb; auto. }
  assert (A4 : forall {X} (pi : gst -> X), (forall t n, pi (up_nn t n) = pi t) -> pi s4 = pi s3).
  { intros X pi H1. eapply kp_map; [|exact E4]. intros v. cbv beta. kp. }
  assert (A5 : g_fields s5 = g_fields s4 /\ g_folded s5 = g_folded s4 /\ g_types s5 = g_types s4).
  { split; [|split]; (eapply kp_map; [|exact E5]); intros; [apply gen_ctor_fields|apply gen_ctor_folded|apply gen_ctor_types]. }
  destruct A5 as (A5a & A5b & A5c).
  assert (A5n : g_nn s4 <= g_nn s5) by (eapply nn_map; [|exact E5]; intros; apply gen_ctor_nn).
  assert (B1 : g_nn s1 = S (g_nn s) /\ dt = g_nn s /\ g_fields s1 = g_fields s /\ g_ctors s1 = g_ctors s /\ g_types s1 = g_types s /\
               lookup x (g_folded s1) = (if functor then Some dt else lookup x (g_folded s)) /\
               lookup x (g_names s1) = (if functor then lookup x (g_names s) else Some dt)).
  { destruct functor; [gb|apply gen_name_eq in E1 as [-> ->]]; simpl; rewrite ?Nat.eqb_refl; repeat split; auto. }
  destruct B1 as (B1 & -> & B2 & B3 & B4 & B5 & B6).
  assert (C1 : lookup x (g_names s5) = lookup x (g_names s4)).
  { clear - E5 Hx EM. rewrite <- EM in Hx. clear EM. revert s4 us s5 E5. unfold gen_ctors. induction (combine cases cs) as [|cc l IH]; simpl in *; intros s4 us s5 H; gb; auto.
    match goal with H : gmap _ _ _ = Some _ |- _ => apply IH in H; [|tauto] end.
    match goal with H : gen_ctor _ _ _ _ _ _ _ = Some _ |- _ => destruct functor;
      [apply gen_ctor_names in H|apply (@gen_ctor_name_other x) in H; [|intros ->; apply Hx; auto]] end; congruence. }
  assert (C2 : g_ctors s4 = g_ctors s).
  { rewrite (A4 _ g_ctors), (A3 _ g_ctors), (A2 _ g_ctors); auto. }
  exists (g_nn s), (vars ++ fv), cs, tcs. 
  set (sa := match lookup x (if functor then g_names s5 else g_folded s5) with
             | Some other => up_tyctors s5 ((other, tcs) :: g_tyctors s5) | None => s5 end) in *.
  assert (SA : g_types sa = g_types s5 /\ g_nn sa = g_nn s5 /\ g_names sa = g_names s5 /\ g_folded sa = g_folded s5 /\ g_fields sa = g_fields s5 /\ g_ctors sa = g_ctors s5).
  { unfold sa. destruct (lookup x (if functor then g_names s5 else g_folded s5)); auto 10. }
  destruct SA as (S1 & S2 & S3 & S4 & S5 & S6).
  constructor; simpl.
  - rewrite S1, A5c, (A4 _ g_types), (A3 _ g_types), (A2 _ g_types), B4; auto.
  - rewrite S2. change (g_nn s :: map fst cs) with ([g_nn s] ++ map fst cs).
    assert (g_nn s3 = S (g_nn s)) by (rewrite (A3 _ g_nn), (A2 _ g_nn); auto).
    eapply seg_app with (b := S (g_nn s)); [lia|lia|apply seg_one; lia|]. eapply seg_wide; [| |exact W4]; lia.
  - rewrite S2. assert (g_nn s3 = S (g_nn s)) by (rewrite (A3 _ g_nn), (A2 _ g_nn); auto). lia.
  - auto.
  - rewrite S3, C1, (A4 _ g_names), (A3 _ g_names), (A2 _ g_names); auto.
  - rewrite S4, A5b, (A4 _ g_folded), (A3 _ g_folded), (A2 _ g_folded); auto.
  - rewrite S5, A5a, (A4 _ g_fields), (A3 _ g_fields), (A2 _ g_fields); auto.
  - rewrite S6. eapply f2_impl; [|exact F6]. simpl. intros c k Hk. apply gget_some in Hk as [? _]. auto.
  - rewrite S6, <- C2. clear - F5 L4. revert cs L4 F5. induction cases as [|c cases IH]; intros [|d cs] L F; simpl in *; try discriminate; constructor.
    + inversion F; subst; auto.
    + inversion F; subst. apply IH; auto.
  - rewrite Nat.eqb_refl. auto.
  - intros n Hn. destruct (Nat.eqb_spec n (g_nn s)) as [_|Hne]; auto.
    assert (Hn5 : lookup x (if functor then g_names s5 else g_folded s5) = Some n).
    { destruct functor.
      - rewrite C1, (A4 _ g_names), (A3 _ g_names), (A2 _ g_names), B6; auto.
      - rewrite A5b, (A4 _ g_folded), (A3 _ g_folded), (A2 _ g_folded), B5; auto. }
    unfold sa. rewrite Hn5. simpl. rewrite Nat.eqb_refl. auto.
Qed.

Lemma lookup_here {A} (l : list (name * A)) r c : NoDup (map fst l) -> In c l -> lookup (fst c) (l ++ r) = Some (snd c).
Proof.
  induction l as [|[y v] l IH]; simpl; intros Hn []; inversion Hn; subst.
  - simpl. rewrite Nat.eqb_refl. auto.
  - destruct (Nat.eqb_spec (fst c) y) as [E|_]; auto. exfalso. apply H2. rewrite <- E. apply in_map. auto.
Qed.
(** After a type item: the type, its folded form, and what folds over it see. *)
Theorem type_item_table emit x params cases s u s' : emit_item emit (ITy x params cases) s = Some (u, s') ->
  NoDup (x :: map fst cases) -> (forall c, In c (map fst cases) -> lookup c (g_ctors s) = None) ->
  exists dt vars cs dtF varsF csF tcs,
    g_types s' = g_types s ++ [mkTyDef dt vars cs; mkTyDef dtF varsF csF] /\
    NoDup (dt :: map fst cs ++ dtF :: map fst csF) /\
    lookup x (g_names s') = Some dt /\ lookup x (g_folded s') = Some dtF /\
    lookup dt (g_tyctors s') = Some tcs /\ lookup dtF (g_tyctors s') = Some tcs /\
    length cs = length cases /\ length csF = length cases /\
    fold_table s' tcs = combine (map fst cs) (combine (map fst csF) (map (fun c => map is_rec (snd c)) cases)).
Proof.
  cbn [emit_item]. intros H Hnd Hnew.
  apply gbind_some in H as (u0 & s0 & E0 & H). injection E0 as <- <-.
  apply gbind_some in H as (u1 & s1 & E1 & H).
  apply gen_type_made in E1 as (dt & vars & cs & tcs0 & M1); auto.
  apply gen_type_made in H as (dtF & varsF & csF & tcs & M2); auto.
  destruct M1, M2. simpl in *.
  exists dt, vars, cs, dtF, varsF, csF, tcs.
  split; [rewrite m_types1, m_types0, <- app_assoc; auto|].
  split.
  { change (dt :: map fst cs ++ dtF :: map fst csF) with ((dt :: map fst cs) ++ (dtF :: map fst csF)).
    assert (W : seg (g_nn s) (g_nn s') ((dt :: map fst cs) ++ (dtF :: map fst csF))) by (eapply seg_app; [exact m_nn0|exact m_nn1|auto|auto]).
    apply W. }
  split; [congruence|]. split; [auto|]. split; [auto|]. split; [auto|].
  split; [apply f2_length in m_cases0; auto|]. split; [apply f2_length in m_cases1; auto|].
  assert (EF : g_fields s' = rev cases ++ g_fields s) by congruence.
  assert (LK : forall c, In c cases -> lookup (fst c) (g_fields s') = Some (snd c)).
  { rewrite EF. intros c Hc. inversion Hnd as [|? ? _ Hnd']; subst. apply lookup_here; [|apply -> in_rev; auto].
    rewrite map_rev. apply NoDup_rev. auto. }
  clear - m_upd0 m_upd1 m_tcs1 LK Hnew.
  assert (Hnew' : forall c, In c cases -> lookup (fst c) (g_ctors s) = None) by (intros; apply Hnew; apply in_map; auto). clear Hnew.
  revert cs csF tcs m_upd0 m_upd1 m_tcs1. induction cases as [|c cases IH]; intros cs csF tcs H1 H2 H3;
    inversion H1 as [|? d ? cs' Hd H1']; subst; inversion H2 as [|? dF ? csF' HdF H2']; subst; inversion H3 as [|? k ? tcs' Hk H3']; subst; simpl; auto.
  rewrite Hk in HdF. rewrite Hd in HdF. rewrite Hnew' in HdF by (left; auto). injection HdF as ->. simpl.
  rewrite LK by (left; auto). simpl. f_equal. apply IH; auto.
  - intros; apply LK; right; auto.
  - intros; apply Hnew'; right; auto.
Qed.
