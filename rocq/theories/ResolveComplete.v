(** The resolver reports an error only if there is one. *)
From Coq Require Import Permutation.
From Verif Require Import VerifyState.
From Verif Require Import TypeckSpec TypeckProg Resolve ResolveFacts ResolveProofs ResolveSpec ResolveLex Typeck.
Set Implicit Arguments.

Definition covers (c : names) (l : names) : Prop := incl (map fst l) (map fst c).
Lemma lookup_covers l t : In t (map fst l) -> exists s, lookup_text l t = Some s.
Proof. intros H. destruct (lookup_text l t) eqn:E; eauto. destruct (lookup_none _ _ E H). Qed.
Lemma covers_cons c l t s s' : covers c l -> covers ((t, s) :: c) ((t, s') :: l).
Proof. intros H x [E|Hx]; [left; auto|right; auto]. Qed.
Lemma first_same (pre : list (list N * bool)) w n b post before after : w = pre ++ (n, b) :: post -> w = before ++ (n, false) :: after ->
  ~ In n (map fst pre) -> ~ In n (map fst before) -> b = false.
Proof.
  intros -> E. revert before E. induction pre as [|[p q] pre IH]; intros [|[p' q'] before] E N M; cbn in *.
  - congruence.
  - injection E as <- <- _. tauto.
  - injection E as -> -> _. tauto.
  - injection E as -> -> E. apply (IH before); auto; tauto.
Qed.
Lemma ok_bind A B (m : rm A) (f : A -> rm B) s : st_ok (snd (m s)) = st_ok s -> (forall a s1, st_ok s1 = st_ok s -> st_ok (snd (f a s1)) = st_ok s1) -> st_ok (snd (rbind m f s)) = st_ok s.
Proof. unfold rbind. destruct (m s) as [a s1]. cbn. intros E H. rewrite (H a s1 E). auto. Qed.
Lemma bind_eq A B (m : rm A) (f : A -> rm B) s a s1 r : m s = (a, s1) -> f a s1 = r -> rbind m f s = r.
Proof. unfold rbind. intros ->. auto. Qed.
Section Complete.
  Variable sy : nat -> sym.
  Lemma type_complete c types : covers (sc_types c) types -> forall t r s, ty_as types t r -> st_ok (snd (resolve_type c t s)) = st_ok s.
  Proof.
    intros V. induction t using xty_ind'; intros r s A; cbn [resolve_type]; auto.
    - destruct r; try contradiction. destruct A as [A B]. unfold rbind, rret. specialize (IHt1 _ s A). destruct (resolve_type c t1 s) as [a' s1]. specialize (IHt2 _ s1 B).
      destruct (resolve_type c t2 s1). cbn in *. congruence.
    - destruct r; try contradiction. destruct A as [A B]. apply nearest_in, V in A. destruct (lookup_covers _ _ A) as [x E]. rewrite E. unfold rbind at 1 2. cbn [record_ref]. unfold rret at 1.
      set (s1 := mkRstate _ _ _ _). change (st_ok s) with (st_ok s1). clearbody s1. clear s E.
      match goal with |- st_ok (snd (rbind ?m _ s1)) = _ => assert (Q : st_ok (snd (m s1)) = st_ok s1) end.
      { revert s1 args0 B. induction H as [|t args Ht _ IH]; intros s1 [|r args'] B; try contradiction; auto. destruct B as [B1 B2]. apply ok_bind; [eauto|]. intros t' s2 _. apply ok_bind; [exact (IH _ _ B2)|reflexivity]. }
      apply ok_bind; [exact Q|reflexivity].
    - eauto.
  Qed.
  (** A name is known, or it becomes a type variable where it first occurs. *)
  Definition found (whole : list (list N * bool)) (c : scope) (n : list N) : Prop := In n (map fst (sc_types c)) \/ (lower n = true /\ firsts whole n).
  Lemma found_mono whole c c' n : covers (sc_types c') (sc_types c) -> found whole c n -> found whole c' n.
  Proof. intros V [H|H]; [left; auto|right; auto]. Qed.
  Definition grown (c c' : scope) (o : list (list N * bool)) : Prop :=
    sc_values c' = sc_values c /\ sc_ctors c' = sc_ctors c /\ covers (sc_types c') (sc_types c) /\ incl (map fst o) (map fst (sc_types c')).
  Lemma type_vars_complete whole : forall t c vars s pre post, whole = pre ++ occurring t ++ post -> incl (map fst pre) (map fst (sc_types c)) ->
    (forall n, In n (map fst (occurring t)) -> found whole c n) ->
    exists r c' vars' s', resolve_type_vars sy t c vars s = (r, c', vars', s') /\ st_ok s' = st_ok s /\ grown c c' (occurring t).
  Proof.
    induction t using xty_ind'; intros c vars s pre post W I P; cbn [resolve_type_vars occurring] in *.
    1-3: do 4 eexists; split; [reflexivity|]; split; [auto|]; repeat split; auto; try (intros x []); intros x Hx; auto.
    - destruct (IHt1 c vars s pre (occurring t2 ++ post)) as (a & c1 & v1 & s1 & E1 & O1 & V1 & K1 & T1 & N1); auto; [rewrite W, !app_assoc; auto|intros n Hn; apply P; rewrite map_app, in_app_iff; auto|].
      destruct (IHt2 c1 v1 s1 (pre ++ occurring t1) post) as (b & c2 & v2 & s2 & E2 & O2 & V2 & K2 & T2 & N2).
      + rewrite W, !app_assoc. auto.
      + rewrite map_app. apply incl_app; auto. intros x Hx. apply T1, I, Hx.
      + intros n Hn. apply (@found_mono _ c _ _ T1), P. rewrite map_app, in_app_iff. auto.
      + unfold rbind, rret. rewrite E1, E2. do 4 eexists. split; [reflexivity|]. split; [congruence|]. split; [congruence|]. split; [congruence|]. split; [intros x Hx; apply T2, T1, Hx|].
        rewrite map_app. apply incl_app; auto. intros x Hx. apply T2, N1, Hx.
    - assert (Q : exists s' o c1 v1, match lookup_text (sc_types c) (id_text n) with
            | Some s => rbind (record_ref (mkRref s n)) (fun _ => rret (Some s, c, vars))
            | None =>
              if lower (id_text n) && match args with [] => true | _ => false end then
                rbind (fresh sy) (fun s => rbind (record_def (def_new s type_var Local n)) (fun _ => rret (Some s, add_type (id_text n) s c, vars ++ [s])))
              else rbind record_error (fun _ => rret (None, c, vars))
            end s = (o, c1, v1, s') /\ st_ok s' = st_ok s /\ sc_values c1 = sc_values c /\ sc_ctors c1 = sc_ctors c /\ covers (sc_types c1) (sc_types c) /\ In (id_text n) (map fst (sc_types c1))).
      { destruct (lookup_text (sc_types c) (id_text n)) as [x|] eqn:E.
        - do 4 eexists. split; [reflexivity|]. repeat split; auto; [intros y Hy; auto|]. eapply nearest_in, lookup_nearest; eauto.
        - destruct (P (id_text n)) as [F|[L (bf & af & F & M)]]; [left; auto|destruct (lookup_none _ _ E F)|]. rewrite L. cbn [andb].
          assert (B : match args with [] => false | _ => true end = false).
          { eapply first_same; [exact W|exact F| |exact M]. intros Hi. apply (lookup_none _ _ E). auto. }
          destruct args; [|discriminate]. do 4 eexists. split; [reflexivity|]. repeat split; auto; [intros y Hy; right; auto|left; auto]. }
      destruct Q as (s1 & o & c1 & v1 & Eo & O1 & V1 & K1 & T1 & N1).
      rewrite (@bind_eq _ _ _ _ _ _ _ _ Eo eq_refl). unfold rbind at 1. match goal with |- context [?g args c1 v1 s1] => 
      assert (Q : forall pre c1 v1 s1, whole = pre ++ flat_map occurring args ++ post -> incl (map fst pre) (map fst (sc_types c1)) -> (forall n, In n (map fst (flat_map occurring args)) -> found whole c1 n) ->
        exists r c' vars' s', g args c1 v1 s1 = (r, c', vars', s') /\ st_ok s' = st_ok s1 /\ grown c1 c' (flat_map occurring args)) end.
      { clear - H. induction H as [|t args Ht _ IH]; intros pre c vars s W I P; cbn [flat_map] in *.
        - do 4 eexists. split; [reflexivity|]. split; [auto|]. repeat split; auto; [intros x Hx; auto|intros x []].
        - destruct (Ht c vars s pre (flat_map occurring args ++ post)) as (a & c1 & v1 & s1 & E1 & O1 & V1 & K1 & T1 & N1); auto; [rewrite W, !app_assoc; auto|intros n Hn; apply P; rewrite map_app, in_app_iff; auto|].
          destruct (IH (pre ++ occurring t) c1 v1 s1) as (b & c2 & v2 & s2 & E2 & O2 & V2 & K2 & T2 & N2).
          + rewrite W, !app_assoc. auto.
          + rewrite map_app. apply incl_app; auto. intros x Hx. apply T1, I, Hx.
          + intros n Hn. apply (@found_mono _ c _ _ T1), P. rewrite map_app, in_app_iff. auto.
          + do 4 eexists. split; [eapply bind_eq; [exact E1|]; cbn beta iota; eapply bind_eq; [exact E2|]; reflexivity|]. split; [congruence|]. split; [congruence|]. split; [congruence|]. split; [intros x Hx; apply T2, T1, Hx|].
            rewrite map_app. apply incl_app; auto. intros x Hx. apply T2, N1, Hx. }
      destruct (Q (pre ++ [(id_text n, match args with [] => false | _ => true end)]) c1 v1 s1) as (b & c2 & v2 & s2 & E2 & O2 & V2 & K2 & T2 & N2).
      + rewrite W, <- app_assoc. auto.
      + rewrite map_app. apply incl_app; [intros x Hx; apply T1, I, Hx|]. intros x [<-|[]]. auto.
      + intros m Hm. apply (@found_mono _ c _ _ T1), P. right. auto.
      + rewrite E2. do 4 eexists. split; [reflexivity|]. split; [congruence|]. split; [congruence|]. split; [congruence|]. split; [intros x Hx; apply T2, T1, Hx|].
        cbn [map fst]. apply incl_cons; auto.
    - eauto.
  Qed.
  Lemma ann_complete c types ann a inside s : covers (sc_types c) types -> ann_as types ann a inside ->
    exists a' c' s', resolve_ann sy ann c s = (a', c', s') /\ st_ok s' = st_ok s /\ sc_values c' = sc_values c /\ sc_ctors c' = sc_ctors c /\ covers (sc_types c') inside.
  Proof.
    intros V A. destruct ann as [t|], a as [[vs r]|]; try contradiction; cbn [resolve_ann].
    - destruct A as (vn & L & ND & F & -> & A). rewrite Forall_forall in F. pose proof (ty_names _ _ _ A) as I.
      assert (M : map fst (rev (combine vn vs)) = rev vn). { rewrite map_rev. f_equal. clear - L. revert vs L. induction vn; intros [|v vs] L; cbn in *; try discriminate; auto. f_equal. auto. }
      destruct (@type_vars_complete (occurring t) t c [] s [] []) as (r' & c' & v' & s' & E & O & V' & K & T & N).
      + rewrite app_nil_r. auto.
      + intros x [].
      + intros n Hn. apply I in Hn. rewrite map_app, in_app_iff, M, <- in_rev in Hn. destruct Hn as [Hn|Hn]; [right|left; auto]. destruct (F _ Hn) as (F1 & _ & F2). apply lower_iff in F1. auto.
      + unfold rbind, rret. rewrite E. do 3 eexists. split; [reflexivity|]. repeat split; auto. unfold covers. rewrite map_app, M. apply incl_app.
        * intros x Hx. apply N. rewrite <- in_rev in Hx. destruct (F _ Hx) as (_ & _ & b & d & -> & _). rewrite map_app, in_app_iff. cbn. auto.
        * intros x Hx. apply T, V, Hx.
    - do 3 eexists. split; [reflexivity|]. cbn in A. subst. auto.
  Qed.
  Lemma map_fst_combine A B (l : list A) : forall l' : list B, length l' = length l -> map fst (combine l l') = l.
  Proof. induction l; intros [|b l'] E; cbn in *; try discriminate; auto. f_equal. auto. Qed.
  Lemma covers_combine c l ks v v' : length v = length ks -> length v' = length ks -> covers c l -> covers (rev (combine ks v) ++ c) (rev (combine ks v') ++ l).
  Proof. intros L L' V. unfold covers. rewrite !map_app, !map_rev, !map_fst_combine; auto. apply incl_app; [apply incl_appl, incl_refl|apply incl_appr; auto]. Qed.
  Definition covered (c : scope) (values types ctors : names) : Prop := covers (sc_values c) values /\ covers (sc_types c) types /\ covers (sc_ctors c) ctors.
  Ltac step := match goal with |- context [let '(_, _) := ?z in _] => destruct z as [? ?] eqn:? end.
  Lemma expr_complete : forall e c values types ctors r s, covered c values types ctors -> expr_as values types ctors e r -> st_ok (snd (resolve_expr sy e c s)) = st_ok s.
  Proof.
    induction e using xexpr_ind'; intros c V T K r s C A; cbn [resolve_expr]; cbn [expr_as] in A; auto.
    - destruct r; try contradiction. apply nearest_in, (proj1 C) in A. destruct (lookup_covers _ _ A) as [x E]. rewrite E. auto.
    - destruct r; try contradiction. destruct A as [A B]. specialize (IHe1 _ _ _ _ _ s C A). unfold rbind, rret. destruct (resolve_expr sy e1 c s) as [a' s1]. specialize (IHe2 _ _ _ _ _ s1 C B). destruct (resolve_expr sy e2 c s1). cbn in *. congruence.
    - destruct r; try contradiction. destruct A as (_ & A & B). specialize (IHe1 _ _ _ _ _ s C A). unfold rbind, rret. destruct (resolve_expr sy e1 c s) as [a' s1]. specialize (IHe2 _ _ _ _ _ s1 C B). destruct (resolve_expr sy e2 c s1). cbn in *. congruence.
    - destruct r; try contradiction. destruct A as [A B]. specialize (IHe1 _ _ _ _ _ s C A). unfold rbind, rret. destruct (resolve_expr sy e1 c s) as [a' s1]. specialize (IHe2 _ _ _ _ _ s1 C B). destruct (resolve_expr sy e2 c s1). cbn in *. congruence.
    - destruct r; try contradiction. destruct A as (inside & A & B & D). destruct C as (C1 & C2 & C3).
      destruct (@ann_complete c T _ _ _ s C2 A) as (a' & c1 & s1 & E & O & V1 & K1 & T1). unfold rbind, rret, fresh, record_def. rewrite E. cbn [fst snd].
      pose proof (fun r => IHe1 c1 V inside K r s1) as Q1. clear IHe1. rename Q1 into IHe1. destruct (resolve_expr sy e1 c1 s1) as [v' s2]. cbn [snd] in *. rewrite <- O, <- (IHe1 r1); [|split; [|split]; rewrite ?V1, ?K1; auto|auto].
      match goal with |- context [resolve_expr sy e2 ?c0 ?s0] => specialize (IHe2 c0 _ _ _ _ s0 (conj (@covers_cons _ _ _ _ _ C1) (conj C2 C3)) D); destruct (resolve_expr sy e2 c0 s0) as [e' s3] end.
      exact IHe2.
    - destruct r; try contradiction. destruct A as [A B]. specialize (IHe _ _ _ _ _ s C A). unfold rbind at 1. destruct (resolve_expr sy e c s) as [d' s1]. cbn [snd] in IHe. rewrite <- IHe. clear IHe A.
      match goal with |- st_ok (snd (rbind ?m _ s1)) = _ => assert (Q : st_ok (snd (m s1)) = st_ok s1) end.
      { revert s1 cases B. induction H as [|[[n xs] b] cs Hb _ IH]; intros s1 [|[[y vs] b'] cs'] B; try contradiction; auto. destruct B as [(B1 & B2 & B3) B4].
        destruct C as (C1 & C2 & C3). apply nearest_in, C3 in B1. destruct (lookup_covers _ _ B1) as [x Ex].
        unfold rbind at 1. unfold resolve_ctor. rewrite Ex. unfold rbind at 1, record_ref, rret at 1.
        set (s2 := mkRstate _ _ _ _). change (st_ok s1) with (st_ok s2). clearbody s2. clear s1 Ex.
        unfold rbind at 1. destruct (resolve_vars sy xs c s2) as [[l c1] s3] eqn:Ev. destruct (vars_lex _ _ _ _ Ev) as (O & L & V1 & T1 & K1). cbn [fst snd]. rewrite <- O.
        specialize (Hb c1 _ _ _ _ s3 (conj (eq_ind_r (fun z => covers z _) (@covers_combine _ _ _ _ _ (eq_trans L (eq_sym (map_length id_text xs))) (eq_trans B2 (eq_sym (map_length id_text xs))) C1) V1) (conj (eq_ind_r (fun z => covers z _) C2 T1) (eq_ind_r (fun z => covers z _) C3 K1))) B3).
        apply ok_bind; [exact Hb|]. intros b1 s4 _. apply ok_bind; [exact (IH _ _ B4)|reflexivity]. }
      apply ok_bind; [exact Q|reflexivity].
    - destruct r; try contradiction. destruct A as (A & B & D). specialize (IHe1 _ _ _ _ _ s C A). unfold rbind, rret. destruct (resolve_expr sy e1 c s) as [a' s1]. specialize (IHe2 _ _ _ _ _ s1 C B).
      destruct (resolve_expr sy e2 c s1) as [b' s2]. specialize (IHe3 _ _ _ _ _ s2 C D). destruct (resolve_expr sy e3 c s2). cbn in *. congruence.
    - destruct r; try contradiction. destruct A as [_ A]. destruct C as (C1 & C2 & C3). unfold rbind, rret, fresh, record_def.
      match goal with |- context [resolve_expr sy e ?c0 ?s0] => specialize (IHe c0 _ _ _ _ s0 (conj (@covers_cons _ _ _ _ _ C1) (conj C2 C3)) A); destruct (resolve_expr sy e c0 s0) as [e' s3] end.
      exact IHe.
    - destruct r; try contradiction. specialize (IHe _ _ _ _ _ s C A). unfold rbind, rret. destruct (resolve_expr sy e c s). exact IHe.
  Qed.
  Lemma fields_complete c types : covers (sc_types c) types -> forall fs l s, fields_as types fs l -> st_ok (snd (resolve_fields c fs s)) = st_ok s.
  Proof.
    intros V fs l s F. revert s. induction F as [|[t|] [r|] fs l A _ IH]; intros s; try contradiction; cbn [resolve_fields]; auto; unfold rbind, rret.
    - pose proof (@type_complete _ _ V _ _ s A) as Q. destruct (resolve_type c t s) as [t' s1]. specialize (IH s1). destruct (resolve_fields c fs s1). cbn in *. congruence.
    - specialize (IH s). destruct (resolve_fields c fs s). exact IH.
  Qed.
  Lemma cases_complete v ty ps c types : covers (sc_types c) types -> forall (cs : list (ident * list (option xty))) (l : list (sym * list (option irty))), Forall2 (fun c0 c' => fields_as types (snd c0) (snd c')) cs l ->
    NoDup (map (fun c => id_text (fst c)) cs) -> forall seen s, Forall (fun n => ~ In n seen) (map (fun c => id_text (fst c)) cs) ->
    st_ok (snd (resolve_cases sy v ty ps c seen cs s)) = st_ok s.
  Proof.
    intros V cs l F. induction F as [|[n fs] [y l0] cs l A _ IH]; intros ND seen s NS; cbn [resolve_cases]; auto. cbn in *. inversion_clear ND as [|? ? N1 N2]. inversion_clear NS as [|? ? S1 S2].
    unfold rbind at 1. pose proof (@fields_complete _ _ V _ _ s A) as Q. destruct (resolve_fields c fs s) as [fs' s1]. cbn [snd] in Q. rewrite <- Q.
    assert (E : existsb (text_eqb (id_text n)) seen = false).
    { destruct (existsb _ seen) eqn:E; auto. apply existsb_exists in E as (t & Ht & E). unfold text_eqb in E. destruct (list_eq_dec _ _ _) as [<-|]; [contradiction|discriminate]. }
    rewrite E. unfold rbind, fresh, record_def, rret.
    match goal with |- context [resolve_cases sy v ty ps c ?sn cs ?s0] => specialize (IH N2 sn s0); destruct (resolve_cases sy v ty ps c sn cs s0) end.
    apply IH. rewrite Forall_forall in *. intros t Ht [<-|I]; [contradiction|exact (S2 _ Ht I)].
  Qed.
  Lemma item_complete i c values types ctors r s : covered c values types ctors -> item_as values types ctors i r -> st_ok (snd (resolve_item sy i c s)) = st_ok s.
  Proof.
    intros (C1 & C2 & C3) A. destruct i as [n ex ec ps cs|n ex ann body]; destruct r as [y ps' cs'|y ann' ex' body']; try contradiction; cbn [resolve_item].
    - destruct A as (L & ND & F). unfold rbind at 1, fresh. set (s1 := mkRstate _ _ _ _). change (st_ok s) with (st_ok s1). unfold rbind at 1.
      destruct (resolve_params sy ps c s1) as [[l c1] s2] eqn:Ep. destruct (params_lex _ _ _ _ Ep) as (O & L' & T). rewrite <- O. cbn [fst snd]. unfold rbind at 1.
      match goal with |- context [resolve_cases sy ?v ?ty ?p ?c0 ?sn ?q ?s0] => pose proof (@cases_complete v ty p c0 (rev (combine (map id_text ps) ps') ++ types)) as Q;
        specialize (Q ltac:(rewrite T; apply covers_combine; auto; rewrite map_length; auto) _ _ F ND sn s0 ltac:(apply Forall_forall; auto)); destruct (resolve_cases sy v ty p c0 sn q s0) end.
      exact Q.
    - destruct A as (_ & inside & A & B). destruct (@ann_complete c types _ _ _ s C2 A) as (a' & c1 & s1 & E & O & V1 & K1 & T1). unfold rbind at 1. rewrite E. cbn [fst snd]. rewrite <- O.
      unfold rbind at 1, fresh. unfold rbind at 1, record_def. destruct body as [b|e], body' as [b'|e']; try contradiction; auto.
      unfold rbind, rret. match goal with |- context [resolve_expr sy e ?c0 ?s0] => assert (Q := @expr_complete e c0 values inside ctors e' s0); destruct (resolve_expr sy e c0 s0) end.
      apply Q; auto. split; [|split]; rewrite ?V1, ?K1; auto.
  Qed.
  Lemma cases_len : forall A B (f : A -> list N) (g : B -> sym) (R : A -> B -> Prop) l l', Forall2 R l l' -> map fst (combine (map f l) (map g l')) = map f l.
  Proof. intros A B f g R l l' F. induction F; cbn; auto. f_equal. auto. Qed.
  (** What an item adds has the same names whatever the symbols are. *)
  Lemma item_names V T C i r V' T' C' r' : item_as V T C i r -> item_as V' T' C' i r' ->
    map fst (item_values i r) = map fst (item_values i r') /\ map fst (item_types i r) = map fst (item_types i r') /\ map fst (item_ctors i r) = map fst (item_ctors i r').
  Proof.
    destruct i as [n ex ec ps cs|n ex ann body]; destruct r as [y ps1 cs1|y ann1 ex1 body1]; intros A; try contradiction; destruct r' as [z ps2 cs2|z ann2 ex2 body2]; intros B; try contradiction; auto.
    destruct A as (_ & _ & A), B as (_ & _ & B). cbn. rewrite !map_rev. rewrite (cases_len _ _ A), (cases_len _ _ B). auto.
  Qed.
  Lemma covers_app c l a b : covers c l -> map fst a = map fst b -> covers (b ++ c) (a ++ l).
  Proof. intros V E. unfold covers. rewrite !map_app, E. apply incl_app; [apply incl_appl, incl_refl|apply incl_appr; auto]. Qed.
  Lemma program_complete : forall xs n c V T C rs, covered c V T C -> program_as V T C xs rs -> Forall (fun u => ui_ok u = true) (resolve_items sy n c xs).
  Proof.
    induction xs as [|x xs IH]; intros n c V T C [|r rs] Co P; try contradiction; cbn [resolve_items]; [constructor|]. destruct P as [P1 P2].
    pose proof (@item_complete _ _ _ _ _ _ (mkRstate n [] [] true) Co P1) as O. destruct (resolve_item sy x c _) as [r' s'] eqn:E. cbn in O. destruct (@item_lex _ _ _ _ _ _ E O) as (_ & A & ds & D & AD).
    constructor; [exact O|]. cbn in D. rewrite D, AD. destruct (@item_names _ _ _ _ _ _ _ _ _ P1 A) as (E1 & E2 & E3). destruct Co as (C1 & C2 & C3).
    eapply IH; [|exact P2]. split; [|split]; cbn; apply covers_app; auto.
  Qed.
End Complete.
