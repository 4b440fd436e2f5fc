(** Completion offers what would refer to something. *)
From Verif Require Import TypeckProg ResolveFacts ResolveProofs ResolveLex NavSpec NavProofs Compl ComplSpec.
Set Implicit Arguments.

(** ** Names that do not occur *)
Section Fill.
  Variable p : nat.
  Variable txt : list N.
  Lemma fill_id n : id_at n <> p -> fill p txt n = n.
  Proof. intros H. unfold fill. apply Nat.eqb_neq in H. rewrite H. auto. Qed.
  Lemma fills_id xs : ~ In p (map id_at xs) -> map (fill p txt) xs = xs.
  Proof. induction xs; cbn; auto. intros H. rewrite fill_id, IHxs by tauto; auto. Qed.
  Ltac out := repeat match goal with H : ~ In p (map id_at _) |- _ => progress rewrite ?map_app, ?in_app_iff in H | H : ~ (_ \/ _) |- _ => progress rewrite ?map_app, ?in_app_iff in H end.
  Lemma fill_ty_id : forall t, ~ In p (map id_at (ty_idents t)) -> fill_ty p txt t = t.
  Proof.
    induction t using xty_ind'; cbn [fill_ty ty_idents]; intros H0; auto.
    - out. rewrite IHt1, IHt2 by tauto; auto.
    - cbn [map In] in H0. rewrite fill_id by tauto; auto. f_equal. assert (H1 : ~ In p (map id_at (flat_map ty_idents args))) by tauto. clear H0. induction H as [|t args Ht _ IH]; auto. cbn in *.
      out. rewrite Ht, IH by tauto; auto.
    - rewrite IHt by tauto; auto.
  Qed.
  Lemma fill_opt_id t : ~ In p (map id_at (opt_idents t)) -> option_map (fill_ty p txt) t = t.
  Proof. destruct t; cbn; auto. intros H. rewrite fill_ty_id by tauto; auto. Qed.
  Lemma fill_expr_id : forall e, ~ In p (map id_at (expr_idents true e)) -> fill_expr p txt e = e.
  Proof.
    induction e using xexpr_ind'; cbn [fill_expr expr_idents]; intros H0; auto; out.
    - cbn in H0. rewrite fill_id by tauto; auto.
    - rewrite IHe1, IHe2 by tauto; auto.
    - rewrite IHe1, IHe2 by tauto; auto.
    - rewrite IHe1, IHe2 by tauto; auto.
    - cbn in H0. rewrite fill_id, fill_opt_id, IHe1, IHe2 by tauto; auto.
    - rewrite IHe by tauto; auto. f_equal. assert (H1 : ~ In p (map id_at (flat_map (fun c => fst (fst c) :: snd (fst c) ++ expr_idents true (snd c)) cs))) by tauto. clear H0.
      induction H as [|[[n xs] b] cs Hb _ IH]; auto. cbn in *. rewrite !map_app, !in_app_iff in H1. rewrite fill_id, fills_id, Hb, IH by tauto; auto.
    - rewrite IHe1, IHe2, IHe3 by tauto; auto.
    - cbn in H0. rewrite fill_id, IHe by tauto; auto.
    - rewrite IHe by tauto; auto.
  Qed.
  Lemma fill_fields_id fs : ~ In p (map id_at (flat_map opt_idents fs)) -> map (option_map (fill_ty p txt)) fs = fs.
  Proof. induction fs as [|f fs IH]; cbn; auto. intros H. out. rewrite fill_opt_id, IH by tauto; auto. Qed.
End Fill.

(** ** Uses are of names that occur *)
Definition within (o : found) (ids : list ident) : Prop := forall n d, In (n, d) (fst o) -> In n ids.
Lemma within_both a b i j : within a i -> within b j -> within (a +++ b) (i ++ j).
Proof. intros A B n d H. cbn in H. apply in_app_iff in H as [H|H]; apply in_app_iff; eauto. Qed.
Lemma within_nil l i : within ([], l) i. Proof. intros n d []. Qed.
Lemma within_look l n : within (look l n) [n].
Proof. unfold look. destruct (closest l n); [|apply within_nil]. intros m e [E|[]]. injection E as <- _. left. auto. Qed.
Lemma within_ty a : forall t, within (ty_names_of a t) (ty_idents t).
Proof.
  induction t using xty_ind'; cbn [ty_names_of ty_idents]; try apply within_nil; auto.
  - apply within_both; auto.
  - apply (@within_both _ _ [n]); [apply within_look|]. induction H as [|t args Ht _ IH]; [apply within_nil|]. cbn. apply within_both; auto.
Qed.
Lemma within_ann : forall t a, within (fst (ann_names_of t a)) (ty_idents t).
Proof.
  induction t using xty_ind'; intros a; cbn [ann_names_of ty_idents]; try apply within_nil; auto.
  - specialize (IHt1 a). destruct (ann_names_of t1 a) as [f a1]. specialize (IHt2 a1). destruct (ann_names_of t2 a1). apply within_both; auto.
  - assert (Q : forall f a1, match closest (ar_types a) n with
                    | Some d => (use n d, a)
                    | None => if small_letter (id_text n) && match args with [] => true | _ => false end then (define n, with_type n a) else (nothing, a)
                    end = (f, a1) -> within f [n]).
    { intros f a1. destruct (closest _ _); [intros E; injection E as <- _; intros m e [E|[]]; injection E as <- _; left; auto|].
      destruct (_ && _); intros E; injection E as <- _; apply within_nil. }
    match goal with |- within (fst (let '(_, _) := ?z in _)) _ => destruct z as [f a1] end. specialize (Q _ _ eq_refl).
    assert (R : forall a1, within (fst ((fix go (l : list xty) (a : around) : found * around :=
                       match l with [] => (nothing, a) | t :: r => let '(f, a1) := ann_names_of t a in let '(g, a2) := go r a1 in (f +++ g, a2) end) args a1)) (flat_map ty_idents args)).
    { clear - H. induction H as [|t args Ht _ IH]; intros a1; [apply within_nil|]. specialize (Ht a1). destruct (ann_names_of t a1) as [f a2]. specialize (IH a2).
      match goal with |- within (fst (let '(_, _) := ?z in _)) _ => destruct z end. apply within_both; auto. }
    specialize (R a1). match goal with |- within (fst (let '(_, _) := ?z in _)) _ => destruct z end. apply (@within_both _ _ [n]); auto.
Qed.
Lemma within_opt t a : within (fst (opt_names_of t a)) (opt_idents t).
Proof. destruct t; [apply within_ann|apply within_nil]. Qed.
Lemma within_expr : forall e a, within (expr_names_of e a) (expr_idents true e).
Proof.
  induction e using xexpr_ind'; intros a0; cbn [expr_names_of expr_idents]; try apply within_nil; auto.
  - apply within_look.
  - apply within_both; auto.
  - apply within_both; auto.
  - apply within_both; auto.
  - apply within_both; [apply within_opt|]. apply within_both; auto. apply within_both; auto. apply within_nil.
  - apply within_both; auto. induction H as [|[[n xs] b] cs Hb _ IH]; [apply within_nil|]. cbn [flat_map fst snd].
    rewrite <- app_comm_cons, <- app_assoc. apply (@within_both _ _ [n]); [apply within_look|]. apply within_both; [apply within_nil|]. apply within_both; auto.
  - apply within_both; auto. apply within_both; auto.
  - apply within_both; auto. apply within_nil.
Qed.
Lemma within_fields a : forall fs, within (fields_names_of a fs) (flat_map opt_idents fs).
Proof. induction fs as [|[t|] fs IH]; cbn; auto; [apply within_nil|]. apply within_both; auto. apply within_ty. Qed.
Lemma within_cases a : forall cs seen, within (cases_names_of a seen cs) (flat_map (fun c => flat_map opt_idents (snd c) ++ [fst c]) cs).
Proof.
  induction cs as [|[n fs] cs IH]; intros seen; cbn [cases_names_of flat_map fst snd]; [apply within_nil|]. rewrite <- app_assoc. apply within_both; [apply within_fields|].
  destruct (closest seen n); [|apply (@within_both _ _ [n]); auto; apply within_nil]. intros m d H. right. eapply IH; eauto.
Qed.

(** ** The names met *)
Definition met_names (m : met) : list ident := map (fun e => fst (fst e)) m.
Lemma met_type_names k : forall t, met_names (met_type k t) = ty_idents t.
Proof.
  induction t using xty_ind'; cbn [met_type ty_idents]; auto.
  - unfold met_names in *. rewrite map_app. congruence.
  - cbn. f_equal. induction H as [|t args Ht _ IH]; auto. unfold met_names in *. cbn. rewrite map_app. congruence.
Qed.
Lemma met_vars_names : forall t k, met_names (fst (met_type_vars t k)) = ty_idents t.
Proof.
  induction t using xty_ind'; intros k; cbn [met_type_vars ty_idents]; auto.
  - specialize (IHt1 k). destruct (met_type_vars t1 k) as [m k1]. specialize (IHt2 k1). destruct (met_type_vars t2 k1). unfold met_names in *. cbn in *. rewrite map_app. congruence.
  - set (k1 := if member _ _ then _ else _). clearbody k1.
    assert (R : forall k1, met_names (fst ((fix go (l : list xty) (k : kscope) : met * kscope :=
                       match l with [] => ([], k) | t :: r => let '(m, k1) := met_type_vars t k in let '(m', k2) := go r k1 in (m ++ m', k2) end) args k1)) = flat_map ty_idents args).
    { clear - H. induction H as [|t args Ht _ IH]; intros k1; auto. specialize (Ht k1). destruct (met_type_vars t k1) as [m k2]. specialize (IH k2).
      match goal with |- context [let '(_, _) := ?z in _] => destruct z end. unfold met_names in *. cbn in *. rewrite map_app. congruence. }
    specialize (R k1). match goal with |- context [let '(_, _) := ?z in _] => destruct z end. cbn in *. congruence.
Qed.
Lemma met_ann_names t k : met_names (fst (met_ann t k)) = opt_idents t.
Proof. destruct t; [apply met_vars_names|auto]. Qed.
Lemma met_names_app a b : met_names (a ++ b) = met_names a ++ met_names b. Proof. apply map_app. Qed.
Lemma met_expr_names : forall e k, met_names (met_expr e k) = expr_idents false e.
Proof.
  induction e using xexpr_ind'; intros k; cbn [met_expr expr_idents]; auto; rewrite ?met_names_app; try congruence.
  - rewrite met_ann_names, IHe1, IHe2. auto.
  - rewrite IHe. f_equal. induction H as [|[[n xs] b] cs Hb _ IH]; auto. unfold met_names in *. cbn [map fst snd flat_map app] in *. rewrite map_app, Hb. f_equal. f_equal. exact IH.
Qed.
Lemma met_fields_names k : forall fs, met_names (met_fields k fs) = flat_map opt_idents fs.
Proof. induction fs as [|[t|] fs IH]; cbn; auto. rewrite met_names_app, met_type_names. congruence. Qed.
Lemma met_item_names x k : met_names (met_item x k) = item_idents false x.
Proof.
  destruct x as [n ex ec ps cs|n ex ann body]; cbn [met_item item_idents app].
  - rewrite app_nil_r. generalize (fold_left (fun k p => k_type (id_text p) k) ps k). intros k'. induction cs as [|[c fs] cs IH]; auto. cbn. rewrite met_names_app, met_fields_names, app_nil_r. congruence.
  - rewrite met_names_app, met_ann_names. f_equal. destruct body; auto. apply met_expr_names.
Qed.
Lemma idents_sub : forall e, incl (expr_idents false e) (expr_idents true e).
Proof.
  induction e using xexpr_ind'; cbn [expr_idents app]; try (apply incl_refl); auto.
  - apply incl_app; [apply incl_appl|apply incl_appr]; auto.
  - apply incl_app; [apply incl_appl|apply incl_appr]; auto.
  - apply incl_app; [apply incl_appl|apply incl_appr]; auto.
  - apply incl_app; [apply incl_appl; apply incl_refl|apply incl_appr]. apply incl_app; [apply incl_appl; auto|apply incl_appr]. apply incl_tl. auto.
  - apply incl_app; [apply incl_appl; auto|apply incl_appr]. induction H as [|[[n xs] b] cs Hb _ IH]; cbn; [apply incl_refl|].
    apply incl_cons; [left; auto|]. apply incl_tl. rewrite <- app_assoc. apply incl_app; [apply incl_appr, incl_appl; auto|apply incl_appr, incl_appr; auto].
  - apply incl_app; [apply incl_appl; auto|apply incl_appr]. apply incl_app; [apply incl_appl; auto|apply incl_appr; auto].
  - apply incl_tl. auto.
Qed.

(** ** What is offered *)
Section Offer.
  Variable p : nat.
  Variable txt : list N.
  Notation F := (fill p txt).
  Definition here (o : found) : Prop := exists d, In (mkIdent txt p, d) (fst o).
  Lemma here_both a b : here (a +++ b) <-> here a \/ here b.
  Proof.
    unfold here. cbn. split.
    - intros (d & H). apply in_app_iff in H as [H|H]; eauto.
    - intros [(d & H)|(d & H)]; exists d; apply in_app_iff; auto.
  Qed.
  Lemma here_not o ids : within o ids -> ~ In p (map id_at ids) -> ~ here o.
  Proof. intros W N (d & H). apply N. apply W in H. apply (in_map id_at) in H. exact H. Qed.
  Record weak (ids : list ident) (m : met) (o : found) : Prop := mkWeak {
    w_names : incl (met_names m) ids;
    w_out : ~ In p (map id_at ids) -> ~ here o }.
  Definition exactly (m : met) (o : found) : Prop := forall n u k, In (n, u, k) m -> id_at n = p -> (In txt (k_names u k) <-> here o).
  Definition good ids m o := weak ids m o /\ exactly m o.
  Lemma nodup_split (i j : list ident) : NoDup (map id_at (i ++ j)) -> NoDup (map id_at i) /\ NoDup (map id_at j) /\ (In p (map id_at i) -> ~ In p (map id_at j)).
  Proof. rewrite map_app. intros H. apply NoDup_app_iff in H as (A & B & C). split; auto. Qed.
  Lemma in_names m n u k : In (n, u, k) m -> In n (met_names m). Proof. intros H. apply (in_map (fun e => fst (fst e))) in H. exact H. Qed.
  Lemma good_then i j m1 m2 o1 o2 : NoDup (map id_at (i ++ j)) -> good i m1 o1 -> weak j m2 o2 -> (~ In p (map id_at i) -> exactly m2 o2) -> good (i ++ j) (m1 ++ m2) (o1 +++ o2).
  Proof.
    intros N [[A1 A2] A3] [B1 B2] B3. apply nodup_split in N as (_ & _ & D). split.
    - constructor.
      + rewrite met_names_app. apply incl_app; [apply incl_appl|apply incl_appr]; auto.
      + rewrite map_app, in_app_iff, here_both. tauto.
    - intros n u k H E. rewrite here_both. apply in_app_iff in H as [H|H]; pose proof (in_names _ _ _ _ H) as I.
      + assert (P : In p (map id_at i)) by (rewrite <- E; apply in_map; auto). rewrite (A3 _ _ _ H E). specialize (B2 (D P)). tauto.
      + assert (P : In p (map id_at j)) by (rewrite <- E; apply in_map; auto). assert (Q : ~ In p (map id_at i)) by (intros Q; exact (D Q P)). rewrite (B3 Q _ _ _ H E). specialize (A2 Q). tauto.
  Qed.
  Lemma good_and i j m1 m2 o1 o2 : NoDup (map id_at (i ++ j)) -> good i m1 o1 -> good j m2 o2 -> good (i ++ j) (m1 ++ m2) (o1 +++ o2).
  Proof. intros N A [B C]. apply good_then; auto. Qed.
  Lemma weak_and i j m1 m2 o1 o2 : weak i m1 o1 -> weak j m2 o2 -> weak (i ++ j) (m1 ++ m2) (o1 +++ o2).
  Proof.
    intros [A1 A2] [B1 B2]. constructor.
    - rewrite met_names_app. apply incl_app; [apply incl_appl|apply incl_appr]; auto.
    - rewrite map_app, in_app_iff, here_both. tauto.
  Qed.
  Lemma good_none i l : good i [] ([], l).
  Proof. split; [constructor; [intros x []|intros _ (d & [])]|intros ? ? ? []]. Qed.
  (** A scope and the definitions around. *)
  Definition same (k : kscope) (a : around) : Prop :=
    k_values k = map id_text (ar_values a) /\ k_types k = map id_text (ar_types a) /\ k_ctors k = map id_text (ar_ctors a).
  Definition a_names (u : usage) (a : around) : list ident := match u with UType => ar_types a | UValue => ar_values a | UCtor => ar_ctors a end.
  Lemma same_names k a u : same k a -> k_names u k = map id_text (a_names u a). Proof. intros (A & B & C). destruct u; auto. Qed.
  Lemma same_value k a n : same k a -> same (k_value (id_text n) k) (with_value n a). Proof. intros (A & B & C). repeat split; cbn; congruence. Qed.
  Lemma same_type k a n : same k a -> same (k_type (id_text n) k) (with_type n a). Proof. intros (A & B & C). repeat split; cbn; congruence. Qed.
  Lemma closest_in l n : In (id_text n) (map id_text l) <-> exists d, closest l n = Some d.
  Proof.
    unfold closest. induction l as [|x l IH]; cbn; [split; [intros []|intros [d E]; discriminate]|]. unfold text_eqb at 1. destruct (list_eq_dec _ (id_text x) (id_text n)) as [E|E].
    - split; eauto.
    - rewrite <- IH. split; [intros [H|H]; congruence|auto].
  Qed.
  Lemma good_use u k a n : same k a -> good [n] [(n, u, k)] (look (a_names u a) (F n)).
  Proof.
    intros S. split.
    - constructor; [apply incl_refl|]. cbn. intros N. rewrite fill_id by tauto. eapply here_not; [apply within_look|]. cbn. tauto.
    - intros m v k' [E|[]] P. injection E as <- <- <-. rewrite (same_names _ S). assert (E : F n = mkIdent txt p) by (unfold fill; rewrite P, Nat.eqb_refl; auto).
      rewrite E. change txt with (id_text (mkIdent txt p)) at 1. rewrite closest_in. unfold look, here. split.
      + intros [d ->]. exists d. left. auto.
      + intros [d H]. destruct (closest _ _); [eauto|destruct H].
  Qed.

  (** Types. *)
  Lemma weak_ty a k t : weak (ty_idents t) (met_type k t) (ty_names_of a (fill_ty p txt t)).
  Proof. constructor; [rewrite met_type_names; apply incl_refl|]. intros N. rewrite fill_ty_id; auto. eapply here_not; eauto. apply within_ty. Qed.
  Lemma good_ty a k (S : same k a) : forall t, NoDup (map id_at (ty_idents t)) -> good (ty_idents t) (met_type k t) (ty_names_of a (fill_ty p txt t)).
  Proof.
    induction t using xty_ind'; cbn [ty_idents met_type fill_ty ty_names_of]; intros N; try apply good_none; auto.
    - pose proof (nodup_split _ _ N) as (N1 & N2 & _). apply good_and; auto.
    - change (n :: flat_map ty_idents args) with ([n] ++ flat_map ty_idents args) in *. pose proof (nodup_split _ _ N) as (_ & N2 & _).
      apply (@good_and [n] _ [(n, UType, k)]); auto; [apply (@good_use UType); auto|]. clear N. induction H as [|t args Ht _ IH]; [apply good_none|]. cbn [flat_map map] in *.
      pose proof (nodup_split _ _ N2) as (N3 & N4 & _). apply good_and; auto.
  Qed.
  Lemma weak_vars k a t : weak (ty_idents t) (fst (met_type_vars t k)) (fst (ann_names_of (fill_ty p txt t) a)).
  Proof. constructor; [rewrite met_vars_names; apply incl_refl|]. intros N. rewrite fill_ty_id; auto. eapply here_not; eauto. apply within_ann. Qed.
  Lemma same_vars : forall t k a, same k a -> same (snd (met_type_vars t k)) (snd (ann_names_of t a)).
  Proof.
    induction t using xty_ind'; intros k a S; cbn [met_type_vars ann_names_of]; auto.
    - specialize (IHt1 k a S). destruct (met_type_vars t1 k) as [m k1], (ann_names_of t1 a) as [f a1]. specialize (IHt2 _ _ IHt1). cbn [snd] in IHt2. destruct (met_type_vars t2 k1), (ann_names_of t2 a1). auto.
    - set (k1 := if member _ _ then _ else _).
      assert (Q : same k1 (snd match closest (ar_types a) n with
                    | Some d => (use n d, a)
                    | None => if small_letter (id_text n) && match args with [] => true | _ => false end then (define n, with_type n a) else (nothing, a)
                    end)).
      { unfold k1. assert (M : member (k_types k) (id_text n) = match closest (ar_types a) n with Some _ => true | None => false end).
        { rewrite (proj1 (proj2 S)). unfold member, closest. induction (ar_types a) as [|x l IH]; cbn; auto. rewrite IH.
          unfold text_eqb. destruct (list_eq_dec _ (id_text n) (id_text x)), (list_eq_dec _ (id_text x) (id_text n)); cbn; congruence. }
        rewrite M, <- small_lower. destruct (closest _ _); auto. destruct (small_letter (id_text n) && _); auto. apply same_type. auto. }
      match goal with |- same _ (snd (let '(_, _) := ?z in _)) => destruct z as [f a1] end. cbn [snd] in Q.
      assert (R : forall k1 a1, same k1 a1 -> same (snd ((fix go (l : list xty) (k : kscope) : met * kscope :=
                       match l with [] => ([], k) | t :: r => let '(m, k1) := met_type_vars t k in let '(m', k2) := go r k1 in (m ++ m', k2) end) args k1))
          (snd ((fix go (l : list xty) (a : around) : found * around :=
                       match l with [] => (nothing, a) | t :: r => let '(f, a1) := ann_names_of t a in let '(g, a2) := go r a1 in (f +++ g, a2) end) args a1))).
      { clear - H. induction H as [|t args Ht _ IH]; intros k1 a1 S; auto. specialize (Ht _ _ S). destruct (met_type_vars t k1) as [m k2], (ann_names_of t a1) as [f a2]. specialize (IH _ _ Ht). cbn [snd] in IH.
        match goal with |- same (snd (let '(_, _) := ?z in _)) (snd (let '(_, _) := ?y in _)) => destruct z, y end. auto. }
      specialize (R _ _ Q). match goal with |- same (snd (let '(_, _) := ?z in _)) (snd (let '(_, _) := ?y in _)) => destruct z, y end. auto.
  Qed.
  Lemma good_vars : forall t k a (S : same k a), NoDup (map id_at (ty_idents t)) -> good (ty_idents t) (fst (met_type_vars t k)) (fst (ann_names_of (fill_ty p txt t) a)).
  Proof.
    induction t using xty_ind'; intros k a S; cbn [ty_idents met_type_vars fill_ty ann_names_of]; intros N; try apply good_none; auto.
    - pose proof (nodup_split _ _ N) as (N1 & N2 & _). pose proof (IHt1 _ _ S N1) as G. pose proof (same_vars t1 S) as S1. pose proof (fill_ty_id p txt t1) as I1.
      destruct (met_type_vars t1 k) as [m k1]. destruct (ann_names_of (fill_ty p txt t1) a) as [f a1] eqn:E1.
      pose proof (weak_vars k1 a1 t2) as W. pose proof (IHt2 k1 a1) as G2. destruct (met_type_vars t2 k1) as [m' k2], (ann_names_of (fill_ty p txt t2) a1) as [g a2]. cbn [fst snd] in *.
      apply good_then; auto. intros Q. rewrite I1 in E1 by auto. rewrite E1 in S1. apply G2; auto.
    - change (n :: flat_map ty_idents args) with ([n] ++ flat_map ty_idents args) in *. pose proof (nodup_split _ _ N) as (_ & N2 & _).
      set (k1 := if member _ _ then _ else _).
      assert (B : match map (fill_ty p txt) args with [] => true | _ => false end = match args with [] => true | _ => false end) by (destruct args; auto).
      rewrite B. clear B.
      assert (Q : forall f a1, match closest (ar_types a) (F n) with
                    | Some d => (use (F n) d, a)
                    | None => if small_letter (id_text (F n)) && match args with [] => true | _ => false end then (define (F n), with_type (F n) a) else (nothing, a)
                    end = (f, a1) -> good [n] [(n, UType, k)] f /\ (~ In p (map id_at [n]) -> same k1 a1)).
      { intros f a1 E. split.
        - destruct (@good_use UType k a n S) as [[U1 U2] U3]. assert (HH : here f <-> here (look (ar_types a) (F n))).
          { unfold look. destruct (closest (ar_types a) (F n)) as [d|]; [injection E as <- _; tauto|]. destruct (small_letter (id_text (F n)) && _); injection E as <- _; unfold here; cbn; tauto. }
          split; [constructor; auto; rewrite HH; auto|]. intros m u k' H1 H2. rewrite HH. eapply U3; eauto.
        - cbn. intros Ne. rewrite fill_id in E by tauto. unfold k1. assert (M : member (k_types k) (id_text n) = match closest (ar_types a) n with Some _ => true | None => false end).
          { clear - S. rewrite (proj1 (proj2 S)). unfold member, closest. induction (ar_types a) as [|x l IH]; cbn; auto. rewrite IH.
            unfold text_eqb. destruct (list_eq_dec _ (id_text n) (id_text x)), (list_eq_dec _ (id_text x) (id_text n)); cbn; congruence. }
          rewrite M, <- small_lower. destruct (closest _ _); [injection E as _ <-; auto|]. destruct (small_letter (id_text n) && _); injection E as _ <-; auto. apply same_type. auto. }
      match goal with |- good _ _ (fst (let '(_, _) := ?z in _)) => destruct z as [f a1] end. destruct (Q _ _ eq_refl) as [Q1 Q2]. clear Q.
      assert (R : forall k1 a1,
        let m := fst ((fix go (l : list xty) (k : kscope) : met * kscope :=
                       match l with [] => ([], k) | t :: r => let '(m, k1) := met_type_vars t k in let '(m', k2) := go r k1 in (m ++ m', k2) end) args k1) in
        let o := fst ((fix go (l : list xty) (a : around) : found * around :=
                       match l with [] => (nothing, a) | t :: r => let '(f, a1) := ann_names_of t a in let '(g, a2) := go r a1 in (f +++ g, a2) end) (map (fill_ty p txt) args) a1) in
        weak (flat_map ty_idents args) m o /\ (same k1 a1 -> exactly m o)).
      { clear - H N2. induction H as [|t args Ht _ IH]; intros k1 a1; [split; [apply good_none|intros _; apply (good_none [] [])]|]. cbn [flat_map map] in *. pose proof (nodup_split _ _ N2) as (N3 & N4 & _).
        pose proof (fun S => Ht k1 a1 S N3) as G1. pose proof (weak_vars k1 a1 t) as W1. pose proof (@same_vars t k1 a1) as S1. pose proof (fill_ty_id p txt t) as I1.
        destruct (met_type_vars t k1) as [m k2]. destruct (ann_names_of (fill_ty p txt t) a1) as [f a2] eqn:E1. specialize (IH N4 k2 a2). cbn zeta in IH. destruct IH as [W2 G2].
        cbn zeta. match goal with |- weak _ (fst (let '(_, _) := ?z in _)) (fst (let '(_, _) := ?y in _)) /\ _ => destruct z, y end. cbn [fst snd] in *. split.
        - apply weak_and; auto.
        - intros S. apply good_then with (i := ty_idents t) (j := flat_map ty_idents args); auto. intros Q. apply G2. rewrite I1 in E1 by auto. rewrite E1 in S1. apply S1. auto. }
      specialize (R k1 a1). cbn zeta in R. destruct R as [R1 R2].
      match goal with |- good _ (fst (let '(_, _) := ?z in _)) (fst (let '(_, _) := ?y in _)) => destruct z, y end. cbn [fst snd] in *. apply (@good_then [n] _ [(n, UType, k)]); auto.
  Qed.
  Lemma weak_opt k a t : weak (opt_idents t) (fst (met_ann t k)) (fst (opt_names_of (option_map (fill_ty p txt) t) a)).
  Proof. destruct t; [apply weak_vars|apply good_none]. Qed.
  Lemma good_opt t k a : same k a -> NoDup (map id_at (opt_idents t)) -> good (opt_idents t) (fst (met_ann t k)) (fst (opt_names_of (option_map (fill_ty p txt) t) a)).
  Proof. destruct t; intros; [apply good_vars; auto|apply good_none]. Qed.
  Lemma same_opt t k a : same k a -> ~ In p (map id_at (opt_idents t)) -> same (snd (met_ann t k)) (snd (opt_names_of (option_map (fill_ty p txt) t) a)).
  Proof. intros S N. destruct t; cbn in *; auto. rewrite fill_ty_id; auto. apply same_vars. auto. Qed.
  Lemma same_values xs : forall k a, same k a -> ~ In p (map id_at xs) -> same (fold_left (fun k x => k_value (id_text x) k) xs k) (fold_left (fun a x => with_value x a) (map F xs) a).
  Proof. intros k a S N. rewrite fills_id by auto. clear N. revert k a S. induction xs; intros k b S; cbn; auto. apply IHxs, same_value; auto. Qed.
  Lemma same_types xs : forall k a, same k a -> ~ In p (map id_at xs) -> same (fold_left (fun k x => k_type (id_text x) k) xs k) (fold_left (fun a x => with_type x a) (map F xs) a).
  Proof. intros k a S N. rewrite fills_id by auto. clear N. revert k a S. induction xs; intros k b S; cbn; auto. apply IHxs, same_type; auto. Qed.
  (** Expressions. *)
  Lemma weak_expr k a e : weak (expr_idents true e) (met_expr e k) (expr_names_of (fill_expr p txt e) a).
  Proof. constructor; [rewrite met_expr_names; apply idents_sub|]. intros N. rewrite fill_expr_id; auto. eapply here_not; eauto. apply within_expr. Qed.
  Lemma good_expr : forall e k a, same k a -> NoDup (map id_at (expr_idents true e)) -> good (expr_idents true e) (met_expr e k) (expr_names_of (fill_expr p txt e) a).
  Proof.
    induction e using xexpr_ind'; intros k b0 S; cbn [expr_idents met_expr fill_expr expr_names_of]; intros N; try apply good_none; auto.
    - apply (@good_use UValue). auto.
    - pose proof (nodup_split _ _ N) as (N1 & N2 & _). apply good_and; auto.
    - pose proof (nodup_split _ _ N) as (N1 & N2 & _). apply good_and; auto.
    - pose proof (nodup_split _ _ N) as (N1 & N2 & _). apply good_and; auto.
    - pose proof (nodup_split _ _ N) as (N1 & N2 & _). pose proof (nodup_split _ _ N2) as (N3 & N4 & _). pose proof (nodup_split [n] _ N4) as (_ & N5 & _).
      assert (T : good ([n] ++ expr_idents true e2) (met_expr e2 (k_value (id_text n) k)) (define (F n) +++ expr_names_of (fill_expr p txt e2) (with_value (F n) b0))).
      { apply (@good_then [n] _ [] (met_expr e2 (k_value (id_text n) k))); auto; [apply good_none|apply weak_expr|]. cbn. intros Q. apply IHe2; auto. rewrite fill_id by tauto. apply same_value. auto. }
      apply good_then; auto.
      + apply good_opt; auto.
      + apply weak_and; [apply weak_expr|apply T].
      + intros Q. apply good_and with (i := expr_idents true e1) (j := [n] ++ expr_idents true e2); auto. apply IHe1; auto. apply same_opt; auto.
    - pose proof (nodup_split _ _ N) as (N1 & N2 & _). apply good_and; auto. clear N N1 IHe. induction H as [|[[n xs] e0] cs Hb _ IH]; [apply good_none|].
      cbn [flat_map map fst snd] in *. rewrite <- app_comm_cons, <- app_assoc in *. pose proof (nodup_split [n] _ N2) as (_ & N3 & _). pose proof (nodup_split xs _ N3) as (_ & N4 & _).
      pose proof (nodup_split _ _ N4) as (N5 & N6 & _). specialize (IH N6).
      apply (@good_and [n] _ [(n, UCtor, k)]); auto; [apply (@good_use UCtor); auto|].
      match goal with |- good _ ?m _ => apply (@good_then xs _ [] m) end; auto; [apply good_none|apply weak_and; [apply weak_expr|apply IH]|].
      intros Q. match goal with |- exactly (?m1 ++ ?m2) _ => apply (@good_and (expr_idents true e0) _ m1 m2) with (1 := N4) end; auto. apply Hb; auto. apply same_values; auto.
    - pose proof (nodup_split _ _ N) as (N1 & N2 & _). pose proof (nodup_split _ _ N2) as (N3 & N4 & _). apply good_and; auto. apply good_and; auto.
    - pose proof (nodup_split [n] _ N) as (_ & N5 & _). apply (@good_then [n] _ [] (met_expr e (k_value (id_text n) k))); auto; [apply good_none|apply weak_expr|].
      cbn. intros Q. apply IHe; auto. rewrite fill_id by tauto. apply same_value. auto.
  Qed.
  Lemma weak_fields a k fs : weak (flat_map opt_idents fs) (met_fields k fs) (fields_names_of a (map (option_map (fill_ty p txt)) fs)).
  Proof. constructor; [rewrite met_fields_names; apply incl_refl|]. intros N. rewrite fill_fields_id; auto. eapply here_not; eauto. apply within_fields. Qed.
  Lemma good_fields a k (S : same k a) : forall fs, NoDup (map id_at (flat_map opt_idents fs)) -> good (flat_map opt_idents fs) (met_fields k fs) (fields_names_of a (map (option_map (fill_ty p txt)) fs)).
  Proof. induction fs as [|[t|] fs IH]; cbn; intros N; auto; [apply good_none|]. pose proof (nodup_split _ _ N) as (N1 & N2 & _). apply good_and; auto. apply good_ty; auto. Qed.
  Let fc := fun c : ident * list (option xty) => (F (fst c), map (option_map (fill_ty p txt)) (snd c)).
  Lemma cases_compl a k : forall cs seen, NoDup (map id_at (flat_map (fun c => flat_map opt_idents (snd c) ++ [fst c]) cs)) ->
    let ids := flat_map (fun c => flat_map opt_idents (snd c) ++ [fst c]) cs in let m := flat_map (fun c => met_fields k (snd c)) cs in let o := cases_names_of a seen (map fc cs) in
    weak ids m o /\ (same k a -> exactly m o).
  Proof.
    induction cs as [|[n fs] cs IH]; intros seen N; cbn [flat_map map cases_names_of fc fst snd] in *; [split; [apply good_none|intros _; apply (good_none [] [])]|].
    rewrite <- app_assoc in *. pose proof (nodup_split _ _ N) as (N1 & N2 & _). pose proof (nodup_split [n] _ N2) as (_ & N3 & _). cbn zeta in *.
    assert (T : let o := match closest seen (F n) with Some _ => cases_names_of a seen (map fc cs) | None => define (F n) +++ cases_names_of a (F n :: seen) (map fc cs) end in
      weak ([n] ++ flat_map (fun c => flat_map opt_idents (snd c) ++ [fst c]) cs) (flat_map (fun c => met_fields k (snd c)) cs) o /\ (same k a -> exactly (flat_map (fun c => met_fields k (snd c)) cs) o)).
    { destruct (closest seen (F n)).
      - destruct (IH seen N3) as [[W1 W2] G]. split; auto. constructor; [apply incl_appr; auto|]. intros Q. apply W2. intros R. apply Q. right. auto.
      - destruct (IH (F n :: seen) N3) as [W G]. split; [apply (@weak_and [n] _ []); auto; apply good_none|]. intros S.
        match goal with |- exactly ?m _ => apply (@good_then [n] _ [] m) with (1 := N2) end; auto. apply good_none. }
    destruct T as [W G]. split; [apply weak_and; auto; apply weak_fields|]. intros S. apply good_and with (1 := N); [apply good_fields; auto|split; auto].
  Qed.
  Lemma good_item x k a : same k a -> NoDup (map id_at (item_idents true x)) -> good (item_idents true x) (met_item x k) (item_names_of (fill_item p txt x) a).
  Proof.
    intros S. destruct x as [n ex ec ps cs|n ex ann body]; cbn [item_idents met_item fill_item item_names_of]; intros N.
    - pose proof (nodup_split ps _ N) as (_ & N1 & _). pose proof (nodup_split _ _ N1) as (N2 & _ & _).
      set (k' := fold_left _ ps k). set (a' := fold_left _ (map F ps) a). destruct (@cases_compl a' k' cs [] N2) as [W G].
      assert (T : good [n] [] (define (F n))) by apply good_none.
      match goal with |- good _ ?m _ => rewrite <- (app_nil_r m); apply (@good_then ps _ [] (m ++ [])) end; auto; [apply good_none|apply weak_and; auto; apply T|].
      intros Q. apply good_and with (1 := N1); auto. split; [exact W|]. apply G. apply same_types; auto.
    - pose proof (nodup_split _ _ N) as (N1 & N2 & _). pose proof (nodup_split [n] _ N2) as (_ & N3 & _). destruct body as [b|e].
      + apply good_then; auto; [apply good_opt; auto|apply (@weak_and [n] _ []); apply good_none|]. intros _ ? ? ? [].
      + set (m := met_expr e _). apply good_then; auto; [apply good_opt; auto|apply (@weak_and [n] _ [] m); [apply good_none|apply weak_expr]|]. intros Q.
        apply (@good_and [n] _ [] m) with (1 := N2); [apply good_none|]. apply good_expr; auto. apply same_opt; auto.
  Qed.
End Offer.
