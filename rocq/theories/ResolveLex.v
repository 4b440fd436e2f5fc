(** Without errors the resolver's tree follows lexical scoping. *)
From Coq Require Import Permutation.
From Verif Require Import VerifyState.
From Verif Require Import TypeckSpec TypeckProg Resolve ResolveFacts ResolveProofs ResolveSpec Typeck.
Set Implicit Arguments.

Lemma lookup_nearest l n s : lookup_text l (id_text n) = Some s -> nearest l n s.
Proof.
  induction l as [|[t x] l IH]; cbn; [discriminate|]. unfold text_eqb. destruct (list_eq_dec _ t (id_text n)) as [->|Ne].
  - intros E. injection E as ->. exists [], l. auto.
  - intros E. destruct (IH E) as (a & b & -> & N). exists ((t, x) :: a), b. split; auto. cbn. intros [Q|Q]; auto.
Qed.
Lemma lookup_none l t : lookup_text l t = None -> ~ In t (map fst l).
Proof.
  induction l as [|[t' x] l IH]; cbn; auto. unfold text_eqb. destruct (list_eq_dec _ t' t); [discriminate|]. intros E [Q|Q]; auto. apply IH in E. auto.
Qed.
Lemma nearest_in l n s : nearest l n s -> In (id_text n) (map fst l).
Proof. intros (a & b & -> & _). rewrite map_app, in_app_iff. cbn. auto. Qed.
(** More names around a type that are not those in it. *)
Lemma nearest_ext new l n s : (forall t, In t (map fst new) -> ~ In t (map fst l)) -> nearest l n s -> nearest (new ++ l) n s.
Proof.
  intros D H. pose proof (nearest_in H) as I. destruct H as (a & b & -> & N). exists (new ++ a), b. split; [rewrite app_assoc; auto|].
  rewrite map_app, in_app_iff. intros [Q|Q]; auto. apply (D _ Q I).
Qed.
Lemma ty_ext new l : (forall t, In t (map fst new) -> ~ In t (map fst l)) -> forall t r, ty_as l t r -> ty_as (new ++ l) t r.
Proof.
  intros D. induction t using xty_ind'; intros r; cbn [ty_as]; auto.
  - destruct r; auto. intros []; auto.
  - destruct r; auto. intros [A B]. split; [apply nearest_ext; auto|]. revert args0 B. induction H as [|t args Ht _ IH]; intros [|r args'] B; auto. destruct B as [B1 B2]. split; [auto|exact (IH _ B2)].
Qed.
Lemma ty_names l : forall t r, ty_as l t r -> incl (map fst (occurring t)) (map fst l).
Proof.
  induction t using xty_ind'; intros r; cbn [ty_as occurring]; intros A; try (intros x []; fail).
  - destruct r; try contradiction. destruct A as [A B]. rewrite map_app. apply incl_app; eauto.
  - destruct r; try contradiction. destruct A as [A B]. cbn [map fst]. apply incl_cons; [eapply nearest_in; eauto|].
    revert args0 B. induction H as [|t args Ht _ IH]; intros [|r args'] B; try contradiction; cbn; [intros x []|]. destruct B as [B1 B2].
    rewrite map_app. apply incl_app; [eauto|exact (IH _ B2)].
  - eauto.
Qed.
Definition firsts (o : list (list N * bool)) (v : list N) : Prop := exists before after, o = before ++ (v, false) :: after /\ ~ In v (map fst before).
Lemma firsts_l a b v : firsts a v -> firsts (a ++ b) v.
Proof. intros (x & y & -> & N). exists x, (y ++ b). rewrite <- app_assoc. auto. Qed.
Lemma firsts_r a b v : firsts b v -> ~ In v (map fst a) -> firsts (a ++ b) v.
Proof. intros (x & y & -> & N) M. exists (a ++ x), y. rewrite <- app_assoc. split; auto. rewrite map_app, in_app_iff. tauto. Qed.
Lemma lower_iff v : lower v = true <-> lower_case v.
Proof.
  unfold lower_case. destruct v as [|c v]; cbn; [split; [discriminate|intros (? & ? & ? & _); discriminate]|]. rewrite andb_true_iff, !N.leb_le. split; [eauto|]. intros (c' & r & E & H). injection E as -> ->. auto.
Qed.
Section Lex.
  Variable sy : nat -> sym.
  Lemma type_lex c : forall t s r s', resolve_type c t s = (r, s') -> st_ok s' = true -> st_ok s = true /\ ty_as (sc_types c) t r.
  Proof.
    induction t using xty_ind'; intros s r s' E O; cbn [resolve_type] in E.
    1-3: rb; split; [auto|exact I].
    - rb. destruct (IHt2 _ _ _ H0 O) as [O1 A]. destruct (IHt1 _ _ _ H O1) as [O2 B]. cbn. auto.
    - apply rbind_inv in E as (o & s1 & Eo & E). apply rbind_inv in E as (args' & s2 & Ea & E). unfold rret in E. injection E as <- <-.
      assert (B : st_ok s1 = true /\ (fix go (l : list xty) (l' : list irty) : Prop :=
       match l, l' with [], [] => True | t :: r, t' :: r' => ty_as (sc_types c) t t' /\ go r r' | _, _ => False end) args args').
      { clear Eo. revert s1 args' Ea. induction H as [|t args Ht _ IH]; intros s1 args' Ea; rb; [auto|].
        destruct (IH _ _ H0) as [O1 A]. destruct (Ht _ _ _ H O1) as [O2 B]. auto. }
      destruct B as [O1 B]. destruct (lookup_text (sc_types c) (id_text n)) as [x|] eqn:El; rb.
      + split; [exact O1|]. cbn. split; auto. apply lookup_nearest. auto.
      + discriminate.
    - cbn. eauto.
  Qed.
  (** The new type variables. *)
  Definition tvars (c c' : scope) (new : names) : Prop :=
    sc_types c' = rev new ++ sc_types c /\ NoDup (map fst new) /\ Forall (fun p => lower (fst p) = true /\ ~ In (fst p) (map fst (sc_types c))) new.
  Lemma tvars_fresh c c' new : tvars c c' new -> forall t, In t (map fst (rev new)) -> ~ In t (map fst (sc_types c)).
  Proof.
    intros (_ & _ & F) t Ht. rewrite map_rev, <- in_rev in Ht. apply in_map_iff in Ht as (p & <- & Hp). rewrite Forall_forall in F. apply (F _ Hp).
  Qed.
  Lemma tvars_trans c c1 c2 a b : tvars c c1 a -> tvars c1 c2 b -> tvars c c2 (a ++ b).
  Proof.
    intros (A1 & A2 & A3) (B1 & B2 & B3). split; [|split].
    - rewrite B1, A1, rev_app_distr, app_assoc. auto.
    - rewrite map_app. apply NoDup_app_iff. split; auto. split; auto. intros t Ha Hb. apply in_map_iff in Hb as (p & <- & Hp). rewrite Forall_forall in B3.
      destruct (B3 _ Hp) as [_ N]. apply N. rewrite A1, map_app, in_app_iff, map_rev, <- in_rev. auto.
    - apply Forall_app. split; auto. eapply Forall_impl; [|exact B3]. intros p [L N]. split; auto. intros Q. apply N. rewrite A1, map_app, in_app_iff. auto.
  Qed.
  Lemma tvars_nil c : tvars c c []. Proof. split; auto. split; constructor. Qed.
  Lemma type_vars_lex : forall t c vars s r c' vars' s', resolve_type_vars sy t c vars s = (r, c', vars', s') -> st_ok s' = true ->
    st_ok s = true /\ exists new, tvars c c' new /\ vars' = vars ++ map snd new /\ ty_as (sc_types c') t r /\ sc_values c' = sc_values c /\ sc_ctors c' = sc_ctors c /\
      Forall (fun p => firsts (occurring t) (fst p)) new.
  Proof.
    induction t using xty_ind'; intros c vars s r c' vars' s' E O; cbn [resolve_type_vars] in E.
    1-3: unfold rret in E; injection E as <- <- <- <-; split; [auto|]; exists []; split; [apply tvars_nil|]; cbn; rewrite app_nil_r; repeat split; auto.
    - apply rbind_inv in E as ([[a' c1] v1] & s1 & Ea & E). apply rbind_inv in E as ([[b' c2] v2] & s2 & Eb & E). unfold rret in E. injection E as <- <- <- <-.
      destruct (IHt2 _ _ _ _ _ _ _ Eb O) as (O1 & nb & B1 & -> & B3 & B4 & B5 & B6). destruct (IHt1 _ _ _ _ _ _ _ Ea O1) as (O2 & na & A1 & -> & A3 & A4 & A5 & A6).
      split; auto. exists (na ++ nb). split; [eapply tvars_trans; eauto|]. split; [rewrite map_app, app_assoc; auto|]. split; [|split; [congruence|split; [congruence|]]].
      2: { cbn [occurring]. apply Forall_app. split; [eapply Forall_impl; [|exact A6]; intros p; apply firsts_l|].
           destruct B1 as (_ & _ & B1). rewrite Forall_forall in *. intros p Hp. apply firsts_r; auto. intros Q. apply (proj2 (B1 _ Hp)). eapply ty_names; eauto. }
      cbn. split; auto. pose proof B1 as (B1' & _). rewrite B1'. apply ty_ext; auto. eapply tvars_fresh. exact B1.
    - apply rbind_inv in E as ([[o c1] v1] & s1 & Eo & E). apply rbind_inv in E as ([[args' c2] v2] & s2 & Ea & E). unfold rret in E. injection E as <- <- <- <-.
      assert (B : st_ok s1 = true /\ exists new, tvars c1 c2 new /\ v2 = v1 ++ map snd new /\ sc_values c2 = sc_values c1 /\ sc_ctors c2 = sc_ctors c1 /\
        (fix go (l : list xty) (l' : list irty) : Prop :=
          match l, l' with [], [] => True | t :: r, t' :: r' => ty_as (sc_types c2) t t' /\ go r r' | _, _ => False end) args args' /\
        Forall (fun p => firsts (flat_map occurring args) (fst p)) new).
      { clear Eo. revert c1 v1 s1 args' Ea. induction H as [|t args Ht _ IH]; intros c1 v1 s1 args' Ea.
        - unfold rret in Ea. injection Ea as <- <- <- <-. split; auto. exists []. split; [apply tvars_nil|]. cbn. rewrite app_nil_r. repeat split; auto.
        - apply rbind_inv in Ea as ([[t' c3] v3] & s3 & Et & Ea). apply rbind_inv in Ea as ([[r' c4] v4] & s4 & Er & Ea). unfold rret in Ea. injection Ea as <- -> -> ->.
          destruct (IH _ _ _ _ Er) as (O1 & nb & B1 & -> & B4 & B5 & B6 & B7). destruct (Ht _ _ _ _ _ _ _ Et O1) as (O2 & na & A1 & -> & A3 & A4 & A5 & A6).
          split; auto. exists (na ++ nb). split; [eapply tvars_trans; eauto|]. split; [rewrite map_app, app_assoc; auto|]. split; [congruence|]. split; [congruence|].
          split; [split; auto; pose proof B1 as (B1' & _); rewrite B1'; apply ty_ext; auto; eapply tvars_fresh; exact B1|].
          cbn [flat_map]. apply Forall_app. split; [eapply Forall_impl; [|exact A6]; intros p; apply firsts_l|].
          destruct B1 as (_ & _ & B1). rewrite Forall_forall in *. intros p Hp. apply firsts_r; auto. intros Q. apply (proj2 (B1 _ Hp)). eapply ty_names; eauto. }
      destruct B as (O1 & nb & B1 & -> & B4 & B5 & B6 & B7). pose proof B1 as (B1' & _).
      destruct (lookup_text (sc_types c) (id_text n)) as [x|] eqn:El.
      + rb. split; [exact O1|]. exists nb. split; auto. split; auto. split; [|split; [auto|split; [auto|]]].
        * cbn. split; auto. rewrite B1'. apply nearest_ext; [eapply tvars_fresh; exact B1|]. apply lookup_nearest. auto.
        * cbn [occurring]. destruct B1 as (_ & _ & B1). rewrite Forall_forall in *. intros p Hp. apply (@firsts_r [(id_text n, match args with [] => false | _ => true end)]); auto. cbn.
          intros [Q|[]]. apply (proj2 (B1 _ Hp)). rewrite <- Q. eapply nearest_in, lookup_nearest; eauto.
      + destruct (lower _ && _) eqn:EL.
        * apply rbind_inv in Eo as (y0 & s0 & Ef & Eo). apply rbind_inv in Eo as (u & s3 & Ed & Eo). unfold record_def in Ed. injection Ed as <- <-. unfold fresh in Ef. injection Ef as <- <-. unfold rret in Eo. injection Eo as <- <- <- <-. cbn in O1. split; auto. apply andb_true_iff in EL as [L La].
          set (y := sy (st_next s)) in *. assert (T : tvars c (add_type (id_text n) y c) [(id_text n, y)]).
          { split; auto. split; [repeat constructor; auto|]. constructor; auto. split; auto. apply lookup_none. auto. }
          exists ((id_text n, y) :: nb). split; [exact (tvars_trans T B1)|]. split; [cbn; rewrite <- app_assoc; auto|]. split; [|split; [auto|split; [auto|]]].
          -- cbn. split; auto. rewrite B1'. apply nearest_ext; [eapply tvars_fresh; exact B1|]. exists [], (sc_types c). auto.
          -- cbn [occurring]. destruct args; [|discriminate]. constructor; [exists [], []; cbn; auto|].
             eapply Forall_impl; [|exact B7]. intros p (x1 & y1 & Q & _). destruct x1; discriminate.
        * rb. discriminate.
    - cbn. eauto.
  Qed.
  Lemma ann_lex ann c s a c' s' : resolve_ann sy ann c s = (a, c', s') -> st_ok s' = true ->
    st_ok s = true /\ ann_as (sc_types c) ann a (sc_types c') /\ sc_values c' = sc_values c /\ sc_ctors c' = sc_ctors c.
  Proof.
    destruct ann as [t|]; cbn [resolve_ann]; intros E O.
    - apply rbind_inv in E as ([[t' c1] vars] & s1 & Et & E). unfold rret in E. injection E as <- <- <-.
      destruct (type_vars_lex _ _ _ _ Et O) as (O1 & new & (T1 & T2 & T3) & -> & A & B & C & F). split; auto. split; auto. cbn. exists (map fst new).
      split; [rewrite !map_length; auto|]. split; auto. split; [apply Forall_map; rewrite Forall_forall in *; intros p Hp; destruct (T3 _ Hp); repeat split; auto; [apply lower_iff; auto|apply (F _ Hp)]|]. split; auto. rewrite T1. f_equal. f_equal.
      clear. induction new as [|[a b] new IH]; cbn; congruence.
    - unfold rret in E. injection E as <- <- <-. cbn. auto.
  Qed.
  Lemma vars_lex : forall xs c s l c' s', resolve_vars sy xs c s = (l, c', s') -> 
    st_ok s' = st_ok s /\ length l = length xs /\ sc_values c' = rev (combine (map id_text xs) l) ++ sc_values c /\ sc_types c' = sc_types c /\ sc_ctors c' = sc_ctors c.
  Proof.
    induction xs as [|x xs IH]; intros c s l c' s' E; cbn [resolve_vars] in E.
    - unfold rret in E. injection E as <- <- <-. auto.
    - apply rbind_inv in E as (y & s1 & Ef & E). apply rbind_inv in E as (u & s2 & Ed & E). unfold record_def in Ed. injection Ed as <- <-. unfold fresh in Ef. injection Ef as <- <-.
      apply rbind_inv in E as ([l' c1] & s3 & Er & E). unfold rret in E. injection E as <- <- <-. destruct (IH _ _ _ _ _ Er) as (O & L & A & B & C).
      split; auto. split; [cbn; auto|]. split; [|auto]. rewrite A. cbn. rewrite <- app_assoc. auto.
  Qed.
  Ltac rdef' := match goal with H : record_def _ _ = (_, _) |- _ => unfold record_def in H; injection H as <- <- end;
    match goal with H : fresh _ _ = (_, _) |- _ => unfold fresh in H; injection H as <- <- end.
  Lemma expr_lex : forall e c s r s', resolve_expr sy e c s = (r, s') -> st_ok s' = true ->
    st_ok s = true /\ expr_as (sc_values c) (sc_types c) (sc_ctors c) e r.
  Proof.
    induction e using xexpr_ind'; intros c s r s' E O; cbn [resolve_expr] in E.
    - destruct (lookup_text _ _) as [x|] eqn:El; rb; [split; [exact O|]; apply lookup_nearest; auto|discriminate].
    - rb. destruct (IHe2 _ _ _ _ H0 O) as [O1 A]. destruct (IHe1 _ _ _ _ H O1) as [O2 B]. cbn. auto.
    - rb. destruct (IHe2 _ _ _ _ H0 O) as [O1 A]. destruct (IHe1 _ _ _ _ H O1) as [O2 B]. cbn. auto.
    - rb. destruct (IHe2 _ _ _ _ H0 O) as [O1 A]. destruct (IHe1 _ _ _ _ H O1) as [O2 B]. cbn. auto.
    - apply rbind_inv in E as ([a' c1] & s1 & Ea & E). apply rbind_inv in E as (v' & s2 & Ev & E). apply rbind_inv in E as (x & s3 & Ef & E).
      apply rbind_inv in E as (u & s4 & Ed & E). rdef'. apply rbind_inv in E as (e' & s5 & Ee & E). rb. cbn [fst snd] in *.
      destruct (IHe2 _ _ _ _ Ee O) as [O1 A]. cbn in O1. destruct (IHe1 _ _ _ _ Ev O1) as [O2 B]. destruct (ann_lex _ _ _ Ea O2) as (O3 & C & V & K).
      split; auto. cbn [expr_as]. exists (sc_types c1). rewrite V, K in B. auto.
    - apply rbind_inv in E as (d' & s1 & Ed & E). apply rbind_inv in E as (cs' & s2 & Ec & E). rb.
      assert (Q : st_ok s1 = true /\ (fix go (l : list (ident * list ident * xexpr)) (l' : list (sym * list sym * rexpr)) : Prop :=
       match l, l' with
       | [], [] => True
       | ((n, xs), b) :: r, ((s, vs), b') :: r' =>
         (nearest (sc_ctors c) n s /\ length vs = length xs /\ expr_as (rev (combine (map id_text xs) vs) ++ sc_values c) (sc_types c) (sc_ctors c) b b') /\ go r r'
       | _, _ => False
       end) cs cs').
      { clear - H Ec O. revert s1 cs' Ec. induction H as [|[[n xs] b] cs Hb _ IH]; intros s1 cs' Ec; [rb; auto|].
        apply rbind_inv in Ec as (k & s3 & Ek & Ec). apply rbind_inv in Ec as ([vs c1] & s4 & Ev & Ec). apply rbind_inv in Ec as (b' & s5 & Eb & Ec).
        apply rbind_inv in Ec as (r' & s6 & Er & Ec). rb. cbn [fst snd] in *. destruct (IH _ _ Er) as [O1 A]. destruct (Hb _ _ _ _ Eb O1) as [O2 B].
        destruct (vars_lex _ _ _ Ev) as (O3 & L & V & T & K). rewrite O3 in O2. unfold resolve_ctor in Ek. destruct (lookup_text _ _) as [x|] eqn:El; rb.
        - split; [exact O2|]. split; auto. split; [apply lookup_nearest; auto|]. split; auto. rewrite V, T, K in B. auto.
        - unfold rret in *. match goal with Q : (None, _) = (_, _) |- _ => injection Q as <- <- | _ => idtac end. discriminate. }
      destruct Q as [O1 Q]. destruct (IHe _ _ _ _ Ed O1) as [O2 A]. cbn. auto.
    - rb. destruct (IHe3 _ _ _ _ H1 O) as [O1 A]. destruct (IHe2 _ _ _ _ H0 O1) as [O2 B]. destruct (IHe1 _ _ _ _ H O2) as [O3 C]. cbn. auto.
    - rb. cbn. auto.
    - rb. cbn. auto.
    - rb. cbn. auto.
    - apply rbind_inv in E as (x & s3 & Ef & E). apply rbind_inv in E as (u & s4 & Ed & E). rdef'. apply rbind_inv in E as (e' & s5 & Ee & E). rb.
      destruct (IHe _ _ _ _ Ee O) as [O1 A]. cbn in O1. cbn. auto.
    - rb. destruct (IHe _ _ _ _ H O) as [O1 A]. cbn. auto.
    - rb. cbn. auto.
  Qed.

  (** ** Items *)
  Lemma params_lex : forall xs c s l c' s', resolve_params sy xs c s = (l, c', s') ->
    st_ok s' = st_ok s /\ length l = length xs /\ sc_types c' = rev (combine (map id_text xs) l) ++ sc_types c.
  Proof.
    induction xs as [|x xs IH]; intros c s l c' s' E; cbn [resolve_params] in E.
    - unfold rret in E. injection E as <- <- <-. auto.
    - apply rbind_inv in E as (y & s1 & Ef & E). apply rbind_inv in E as (u & s2 & Ed & E). rdef'.
      apply rbind_inv in E as ([l' c1] & s3 & Er & E). unfold rret in E. injection E as <- <- <-. destruct (IH _ _ _ _ _ Er) as (O & L & A).
      split; auto. split; [cbn; auto|]. rewrite A. cbn. rewrite <- app_assoc. auto.
  Qed.
  Lemma fields_lex c : forall fs s l s', resolve_fields c fs s = (l, s') -> st_ok s' = true -> st_ok s = true /\ fields_as (sc_types c) fs l.
  Proof.
    induction fs as [|[t|] fs IH]; intros s l s' E O; cbn [resolve_fields] in E.
    - rb. split; auto. constructor.
    - apply rbind_inv in E as (t' & s1 & Et & E). apply rbind_inv in E as (l' & s2 & El & E). rb. destruct (IH _ _ _ El O) as [O1 A].
      destruct (type_lex _ _ _ Et O1) as [O2 B]. split; auto. constructor; auto.
    - apply rbind_inv in E as (l' & s2 & El & E). rb. destruct (IH _ _ _ El O) as [O1 A]. split; auto. constructor; auto.
  Qed.
  Lemma add_defs_app c a b : add_defs c (a ++ b) = add_defs (add_defs c a) b. Proof. apply fold_left_app. Qed.
  Lemma add_defs_local c ds : Forall local ds -> add_defs c ds = c.
  Proof. unfold add_defs. intros F. revert c. induction F as [|d ds H _ IH]; intros c; cbn [fold_left]; auto. rewrite IH. unfold add_def. rewrite H. auto. Qed.
  Definition shown (v : vis) : Prop := v <> Local.
  Lemma cases_lex v ty ps c (Hv : shown v) : forall cs seen s l s', resolve_cases sy v ty ps c seen cs s = (l, s') -> st_ok s' = true ->
    st_ok s = true /\ Forall2 (fun c0 c' => fields_as (sc_types c) (snd c0) (snd c')) cs l /\
    NoDup (map (fun c => id_text (fst c)) cs) /\ Forall (fun n => ~ In n seen) (map (fun c => id_text (fst c)) cs) /\
    exists ds, st_defs s' = st_defs s ++ ds /\ forall c0, let new := rev (combine (map (fun c => id_text (fst c)) cs) (map fst l)) in
      add_defs c0 ds = mkScope (new ++ sc_values c0) (sc_types c0) (new ++ sc_ctors c0).
  Proof.
    induction cs as [|[n fs] cs IH]; intros seen s l s' E O; cbn [resolve_cases] in E.
    - rb. split; auto. split; [constructor|]. split; [constructor|]. split; [constructor|]. exists []. split; [rewrite app_nil_r; auto|]. intros [? ? ?]. auto.
    - apply rbind_inv in E as (fs' & s1 & Ef & E). destruct (existsb _ seen) eqn:Es.
      + rb. destruct (IH _ _ _ _ E O) as [O1 _]. discriminate.
      + apply rbind_inv in E as (x & s3 & Ex & E). apply rbind_inv in E as (u & s4 & Ed & E). rdef'. apply rbind_inv in E as (r' & s5 & Er & E). rb.
        destruct (IH _ _ _ _ Er O) as (O1 & A & ND & NS & ds & D & AD). cbn in O1. destruct (fields_lex _ _ _ Ef O1) as [O2 B].
        apply (resolve_fields_ok sy) in Ef as (S1 & _). pose proof (sp_defs S1) as D1. rewrite app_nil_r in D1. cbn [st_defs] in D.
        split; auto. split; [constructor; auto|]. cbn [map fst]. rewrite Forall_forall in NS. split; [|split].
        * constructor; auto. intros I. apply (NS _ I). left. auto.
        * constructor.
          -- intros I. assert (T : existsb (text_eqb (id_text n)) seen = true); [|congruence]. apply existsb_exists. exists (id_text n). split; auto.
             unfold text_eqb. destruct (list_eq_dec _ _ _); congruence.
          -- apply Forall_forall. intros t Ht I. apply (NS _ Ht). right. auto.
        * eexists (_ :: ds). split; [rewrite D, <- app_assoc, D1; reflexivity|]. intros c0. change (?a :: ds) with ([a] ++ ds). rewrite add_defs_app, AD.
          cbn [combine rev map fst]. rewrite <- !app_assoc. unfold add_defs, add_def. cbn. destruct v; [destruct Hv; auto| |]; reflexivity.
  Qed.
  Lemma item_lex i c s r s' : resolve_item sy i c s = (r, s') -> st_ok s' = true ->
    st_ok s = true /\ item_as (sc_values c) (sc_types c) (sc_ctors c) i r /\
    exists ds, st_defs s' = st_defs s ++ ds /\ forall c0,
      add_defs c0 ds = mkScope (item_values i r ++ sc_values c0) (item_types i r ++ sc_types c0) (item_ctors i r ++ sc_ctors c0).
  Proof.
    destruct i as [n export ec ps cs|n export ann body]; cbn [resolve_item]; intros E O.
    - apply rbind_inv in E as (x & s1 & Ex & E). apply rbind_inv in E as ([ps' c1] & s2 & Ep & E). apply rbind_inv in E as (cs' & s3 & Ec & E).
      apply rbind_inv in E as (u & s4 & Ed & E). unfold record_def in Ed. injection Ed as <- <-. unfold fresh in Ex. injection Ex as <- <-. rb. cbn [fst snd] in *. cbn in O.
      apply cases_lex in Ec as (O1 & A & ND & _ & d2 & D2 & AD); [|destruct ec; discriminate|auto]. destruct (params_lex _ _ _ Ep) as (O2 & L & T).
      apply (resolve_params_ok sy) in Ep as (d1 & S1 & _). pose proof (sp_defs S1) as D1. cbn in D1, O2. split; [congruence|]. split.
      + cbn. split; auto. split; auto. rewrite <- T. auto.
      + cbn [st_defs]. rewrite D2, D1. eexists (d1 ++ d2 ++ [_]). split; [rewrite <- !app_assoc; reflexivity|]. intros c0.
        rewrite !add_defs_app, (add_defs_local _ (sp_vis S1)), AD. unfold add_defs, add_def. cbn. destruct export; reflexivity.
    - apply rbind_inv in E as ([a c1] & s1 & Ea & E). apply rbind_inv in E as (x & s2 & Ex & E). apply rbind_inv in E as (u & s3 & Ed & E). rdef'.
      apply rbind_inv in E as (b & s4 & Eb & E). rb. cbn [fst snd] in *. 
      assert (Q : st_ok s1 = true /\ match body, b with inl b, inl b' => b = b' | inr e, inr e' => expr_as (sc_values c1) (sc_types c1) (sc_ctors c1) e e' | _, _ => False end /\
        exists d3, st_defs s4 = (st_defs s1 ++ [mkRdef (sy (st_next s1)) (ann_def a) (if export then Export else Module) n]) ++ d3 /\ Forall local d3).
      { destruct body as [bi|e].
        - rb. cbn in *. split; auto. split; auto. exists []. rewrite app_nil_r. auto.
        - apply rbind_inv in Eb as (e' & s5 & Ee & Eb). rb. destruct (expr_lex _ _ _ Ee O) as [O1 A]. split; auto. split; auto.
          apply resolve_expr_ok in Ee as (d3 & B). exists d3. split; [exact (sp_defs B)|exact (sp_vis B)]. }
      destruct Q as (O1 & Q & d3 & D3 & L3). destruct (ann_lex _ _ _ Ea O1) as (O2 & A & V & K). apply resolve_ann_ok in Ea as (d1 & S1 & _).
      pose proof (sp_defs S1) as D1. split; auto. rewrite V, K in Q. split.
      + cbn. split; auto. exists (sc_types c1). auto.
      + rewrite D3, D1. eexists (d1 ++ [_] ++ d3). split; [rewrite <- !app_assoc; reflexivity|]. intros c0.
        rewrite !add_defs_app, (add_defs_local _ (sp_vis S1)), (add_defs_local _ L3). unfold add_defs, add_def, ann_def. destruct c0. cbn.
        destruct a as [[vs t]|]; destruct export; reflexivity.
  Qed.
  Lemma program_lex : forall xs n c, Forall (fun u => ui_ok u = true) (resolve_items sy n c xs) ->
    program_as (sc_values c) (sc_types c) (sc_ctors c) xs (map ui_tree (resolve_items sy n c xs)).
  Proof.
    induction xs as [|x xs IH]; intros n c F; cbn [resolve_items] in *; [exact I|].
    destruct (resolve_item sy x c _) as [r s'] eqn:E. inversion_clear F as [|? ? O F']. cbn in O. apply item_lex in E as (_ & A & ds & D & AD); auto.
    cbn in D. cbn [map ui_tree program_as]. split; auto. specialize (IH _ _ F'). rewrite D, AD in IH |- *. exact IH.
  Qed.
End Lex.
