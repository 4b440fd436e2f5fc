(** What the grammar describes is parsed, without an error, to its tree. *)
From Verif Require Import Lexer Parser ParserSpec ParserProofs ParserRun ParserFns GrammarSpec.
Set Implicit Arguments.

Definition K (p : pstate) : list kind := map fst (nt (toks p)).
Lemma K_next p : next p = hd_error (K p).
Proof. apply next_map. Qed.
Lemma K_cnt p : cnt p = length (K p).
Proof. unfold cnt, K. rewrite map_length. auto. Qed.
Lemma R_K p p' out ks : R p p' out -> K p = yields out ++ ks -> K p' = ks.
Proof. intros H E. apply R_nt in H. fold (K p) (K p') in H. rewrite E in H. apply app_inv_head in H. auto. Qed.
Lemma R0_K p p' : R p p' [] -> K p' = K p.
Proof. intros H. eapply R_K; eauto. Qed.
Lemma toks_K p p' : toks p' = toks p -> K p' = K p.
Proof. unfold K. congruence. Qed.

Lemma Rr p : R p p [].
Proof. apply R_refl; repeat split. Qed.

Section Rules.
  Variables (A B : Type).
  Implicit Types (Q : B -> pstate -> Prop).
  Lemma f_hint h (X : unit -> M B) p0 p out ks Q : R p0 p out -> K p = ks ->
    (forall p1, R p0 p1 out -> K p1 = ks -> wp (X tt) p1 Q) -> wp (bind (hint_ h) X) p Q.
  Proof.
    intros H1 H2 HX. eapply wp_seq; [apply hint_spec|]. cbv beta. intros [] p1 [H _]. apply HX; [|rewrite (R0_K H); auto].
    pose proof (R_trans H1 H) as Y. rewrite app_nil_r in Y. auto.
  Qed.
  Lemma f_at k (X : bool -> M B) p0 p out ks Q : R p0 p out -> K p = ks ->
    (forall p1, R p0 p1 out -> K p1 = ks -> wp (X (is_kind (hd_error ks) k)) p1 Q) -> wp (bind (at_ k) X) p Q.
  Proof.
    intros H1 H2 HX. eapply wp_seq; [apply at_spec|]. cbv beta. intros b p1 (H & _ & _ & Hb & Hn).
    assert (E : b = is_kind (hd_error ks) k).
    { rewrite <- H2, <- K_next, <- Hn. destruct b; symmetry; [apply is_kind_iff, Hb; auto|]. destruct (is_kind (next p1) k) eqn:F; auto. apply is_kind_iff, Hb in F. discriminate. }
    subst b. apply HX; [|rewrite (R0_K H); auto]. pose proof (R_trans H1 H) as Y. rewrite app_nil_r in Y. auto.
  Qed.
  Lemma f_peek (X : option kind -> M B) p0 p out ks Q : R p0 p out -> K p = ks ->
    (forall p1, R p0 p1 out -> K p1 = ks -> wp (X (hd_error ks)) p1 Q) -> wp (bind peek X) p Q.
  Proof.
    intros H1 H2 HX. eapply wp_seq; [apply peek_spec|]. cbv beta. intros o p1 (H & Ho & _ & _ & _ & Hn & _).
    rewrite Ho, Hn, K_next, H2. apply HX; [|rewrite (R0_K H); auto]. pose proof (R_trans H1 H) as Y. rewrite app_nil_r in Y. auto.
  Qed.
  Lemma f_call (m : M A) t (X : A -> M B) p0 p out ks Q : R p0 p out -> K p = yields t ++ ks -> wp m p (fun _ p' => R p p' t) ->
    (forall a p1, R p0 p1 (out ++ t) -> K p1 = ks -> wp (X a) p1 Q) -> wp (bind m X) p Q.
  Proof.
    intros H1 H2 H3 HX. eapply wp_seq; [exact H3|]. cbv beta. intros a p1 H. apply HX; [apply (R_trans H1 H)|eapply R_K; eauto].
  Qed.
  Lemma f_start (X : nat -> M B) p ks Q : K p = ks ->
    (forall m p1, Started p m p1 -> R p1 p1 [] -> K p1 = ks -> wp (X m) p1 Q) -> wp (bind start X) p Q.
  Proof.
    intros H2 HX. eapply wp_seq; [apply start_spec|]. cbv beta. intros m p1 Hs. apply HX; auto; [apply R_refl; repeat split|]. destruct Hs as [_ ->]. auto.
  Qed.
  Lemma f_complete m k (X : nat -> M B) p p1 p2 out ks Q : Started p m p1 -> R p1 p2 out -> K p2 = ks -> k <> BinaryExpr ->
    (forall p3, RC p p3 m (Node k out) -> K p3 = ks -> wp (X m) p3 Q) -> wp (bind (complete m k) X) p2 Q.
  Proof.
    intros Hs Hr Hk Hb HX. eapply wp_seq; [eapply complete_spec; eauto; apply gi_node; auto; eapply R_grp; eauto|]. cbv beta. intros m' p3 (-> & HC & Ht).
    apply HX; auto. rewrite (toks_K _ _ Ht). auto.
  Qed.
  Lemma f_precede m t (X : nat -> M B) p p1 p2 o1 ks Q : RC p p1 m t -> R p1 p2 o1 -> K p2 = ks ->
    (forall x p3, Preceded p p3 x t o1 -> R p3 p3 [] -> K p3 = ks -> wp (X x) p3 Q) -> wp (bind (precede m) X) p2 Q.
  Proof.
    intros Hc Hr Hk HX. eapply wp_seq; [eapply precede_spec; eauto|]. cbv beta. intros x p3 [Hp Ht]. apply HX; auto; [apply R_refl; repeat split|]. rewrite (toks_K _ _ Ht). auto.
  Qed.
  Lemma f_complete2 x k t o1 (X : nat -> M B) p p3 p4 o2 ks Q : Preceded p p3 x t o1 -> R p3 p4 o2 -> K p4 = ks -> ginner (Node k (t :: o1 ++ o2)) ->
    (forall p5, RC p p5 x (Node k (t :: o1 ++ o2)) -> K p5 = ks -> wp (X x) p5 Q) -> wp (bind (complete x k) X) p4 Q.
  Proof.
    intros Hs Hr Hk Hb HX. eapply wp_seq; [eapply complete2_spec; eauto|]. cbv beta. intros m' p5 (-> & HC & Ht). apply HX; auto. rewrite (toks_K _ _ Ht). auto.
  Qed.
  Lemma ginner2 p p3 p4 x t o1 o2 k : Preceded p p3 x t o1 -> R p3 p4 o2 -> k <> BinaryExpr -> ginner (Node k (t :: o1 ++ o2)).
  Proof.
    intros (C & CL & sp & idx & m & ks & tl & s1 & u & Bs & _) Hr Hk. apply gi_node; auto. pose proof (b_grp Bs) as Hg. inversion Hg; subst. constructor; auto. apply Forall_app. split; auto. eapply R_grp; eauto.
  Qed.
End Rules.
Lemma e_bump k p ks : K p = k :: ks -> wp (bump k) p (fun _ p' => R p p' [Tok k]).
Proof. intros E. apply bump_spec. rewrite K_next, E. auto. Qed.
Lemma e_any k p ks : K p = k :: ks -> wp bump_any p (fun _ p' => R p p' [Tok k]).
Proof. intros E. apply bump_any_spec. rewrite K_next, E. auto. Qed.
Lemma e_name p ks : K p = KName :: ks -> wp bump_name p (fun _ p' => R p p' [name]).
Proof. intros E. apply bump_name_spec. rewrite K_next, E. auto. Qed.
Lemma e_expect k p ks : K p = k :: ks -> wp (expect k) p (fun _ p' => R p p' [Tok k]).
Proof.
  intros E. unfold expect. eapply f_at; [apply Rr|exact E|]. intros p1 H1 E1. cbn [hd_error is_kind]. rewrite keqb_refl.
  eapply wp_mono; [eapply e_bump; eauto|]. cbv beta. intros _ p' H. apply (R_trans H1 H).
Qed.
Lemma e_expect_name p ks : K p = KName :: ks -> wp expect_name p (fun _ p' => R p p' [name]).
Proof.
  intros E. unfold expect_name. eapply f_at; [apply Rr|exact E|]. intros p1 H1 E1. cbn [hd_error is_kind]. rewrite keqb_refl.
  eapply wp_mono; [eapply e_name; eauto|]. cbv beta. intros _ p' H. apply (R_trans H1 H).
Qed.

(** Loops over a list of things that follow. *)
Lemma f_while_with A B (I : list B -> A -> pstate -> Prop) (I' : A -> pstate -> Prop) body :
  (forall x l a p, I (x :: l) a p -> wp (body a) p (fun o p' => exists a', o = Some a' /\ I l a' p')) ->
  (forall a p, I [] a p -> wp (body a) p (fun o p' => o = None /\ I' a p')) ->
  forall l n a p, I l a p -> length l < n -> wp (while_with n body a) p I'.
Proof.
  intros H1 H2. induction l as [|x l IH]; intros n a p Ha Hn; (destruct n as [|n]; [cbn in Hn; lia|]); cbn [while_with].
  - eapply wp_seq; [apply H2; eauto|]. cbv beta. intros o p' [-> H]. apply wp_ret. auto.
  - eapply wp_seq; [eapply H1; eauto|]. cbv beta. intros o p' (a' & -> & H). apply IH; auto. cbn in Hn. lia.
Qed.
Lemma f_while B (I : list B -> pstate -> Prop) (I' : pstate -> Prop) body :
  (forall x l p, I (x :: l) p -> wp body p (fun b p' => b = true /\ I l p')) ->
  (forall p, I [] p -> wp body p (fun b p' => b = false /\ I' p')) ->
  forall l n p, I l p -> length l < n -> wp (while_ n body) p (fun _ p' => I' p').
Proof.
  intros H1 H2. induction l as [|x l IH]; intros n p Ha Hn; (destruct n as [|n]; [cbn in Hn; lia|]); cbn [while_].
  - eapply wp_seq; [apply H2; eauto|]. cbv beta. intros o p' [-> H]. apply wp_ret. auto.
  - eapply wp_seq; [eapply H1; eauto|]. cbv beta. intros o p' (-> & H). apply IH; auto. cbn in Hn. lia.
Qed.

Ltac ev := cbn [hd_error is_kind]; repeat match goal with
  | |- context [keqb ?a ?b] => let v := eval vm_compute in (keqb a b) in change (keqb a b) with v end; cbv iota.
Ltac fs :=
  lazymatch goal with
  | HR : R ?p0 ?p ?out, HK : K ?p = _ |- wp (bind (hint_ _) _) ?p _ => eapply f_hint; [exact HR|exact HK|]; clear HR HK; intros ?p HR HK
  | HR : R ?p0 ?p ?out, HK : K ?p = _ |- wp (bind (at_ _) _) ?p _ => eapply f_at; [exact HR|exact HK|]; clear HR HK; intros ?p HR HK; ev
  | HR : R ?p0 ?p ?out, HK : K ?p = _ |- wp (bind peek _) ?p _ => eapply f_peek; [exact HR|exact HK|]; clear HR HK; intros ?p HR HK; ev
  | HR : R ?p0 ?p ?out, HK : K ?p = ?k :: ?r |- wp (bind (bump _) _) ?p _ => eapply f_call with (t := [Tok k]) (ks := r); [exact HR|exact HK|eapply e_bump; exact HK|]; clear HR HK; intros _ ?p HR HK
  | HR : R ?p0 ?p ?out, HK : K ?p = ?k :: ?r |- wp (bind bump_any _) ?p _ => eapply f_call with (t := [Tok k]) (ks := r); [exact HR|exact HK|eapply e_any; exact HK|]; clear HR HK; intros _ ?p HR HK
  | HR : R ?p0 ?p ?out, HK : K ?p = ?k :: ?r |- wp (bind bump_name _) ?p _ => eapply f_call with (t := [name]) (ks := r); [exact HR|exact HK|eapply e_name; exact HK|]; clear HR HK; intros _ ?p HR HK
  | HR : R ?p0 ?p ?out, HK : K ?p = ?k :: ?r |- wp (bind (expect _) _) ?p _ => eapply f_call with (t := [Tok k]) (ks := r); [exact HR|exact HK|eapply e_expect; exact HK|]; clear HR HK; intros _ ?p HR HK
  | HR : R ?p0 ?p ?out, HK : K ?p = ?k :: ?r |- wp (bind expect_name _) ?p _ => eapply f_call with (t := [name]) (ks := r); [exact HR|exact HK|eapply e_expect_name; exact HK|]; clear HR HK; intros _ ?p HR HK
  | HK : K ?p = _ |- wp (bind start _) ?p _ => eapply f_start; [exact HK|]; clear HK; intros ?m ?p ?Hs ?HR HK
  | HS : Started ?p0 ?m ?p1, HR : R ?p1 ?p ?out, HK : K ?p = _ |- wp (bind (complete ?m _) _) ?p _ =>
      eapply f_complete; [exact HS|exact HR|exact HK|discriminate|clear HS HR HK; intros ?p ?HC HK]
  | |- wp (bind (bind _ _) _) _ _ => apply wp_assoc; cbv beta
  | |- wp (bind (ret _) _) _ _ => apply wp_bind, wp_ret; cbv iota
  | |- wp (ret _) _ _ => apply wp_ret
  end.
(** A call of another parsing function. *)
Lemma f_call1 A B (m : M A) t (X : A -> M B) p0 p out ks (Q : B -> pstate -> Prop) : R p0 p out -> K p = yield t ++ ks -> wp m p (fun _ p' => R p p' [t]) ->
    (forall a p1, R p0 p1 (out ++ [t]) -> K p1 = ks -> wp (X a) p1 Q) -> wp (bind m X) p Q.
Proof. intros H1 H2. apply f_call; auto. cbn. rewrite app_nil_r. auto. Qed.
Ltac fcall x lem := match goal with HR : R ?p0 ?p ?out, HK : K ?p = _ |- wp (bind ?m _) ?p _ =>
  eapply f_call1 with (t := x); [exact HR|exact HK|eapply lem; eauto|clear HR HK; intros _ ?p HR HK] end.
Ltac fcalls x lem := match goal with HR : R ?p0 ?p ?out, HK : K ?p = _ |- wp (bind ?m _) ?p _ =>
  eapply f_call with (t := x); [exact HR|exact HK|eapply lem; eauto|clear HR HK; intros _ ?p HR HK] end.
(** The node just completed is part of the node around it. *)
Ltac fin := match goal with HC : RC ?p ?q _ ?t, HR : R ?p0 ?p ?out |- _ => pose proof (R_trans HR (RC_R HC)); clear HC HR end.
Ltac norm H := repeat (cbn [yields yield name flat_map app] in H; rewrite ?flat_map_app, ?app_nil_r, <- ?app_assoc in H).

(** ** Types *)
Definition not_dot (ks : list kind) : Prop := hd_error ks <> Some KDot.
Definition tstop (ks : list kind) : Prop := exists k r, ks = k :: r /\ (k = KEquals \/ k = KRightParen).
Definition tstop' (ks : list kind) : Prop := exists k r, ks = k :: r /\ (k = KEquals \/ k = KRightParen \/ k = KArrow).
Lemma e_dotted l p ks : path (name :: l) -> K p = yields l ++ ks -> not_dot ks -> wp dotted p (fun _ p' => R p p' l).
Proof.
  intros Hl HK Hd. pose proof (Rr p) as HR. unfold dotted. inversion Hl; subst; cbn in HK.
  - fs. replace (is_kind (hd_error ks) KDot) with false by (symmetry; destruct (is_kind (hd_error ks) KDot) eqn:F; auto; apply is_kind_iff in F; contradiction). fs. auto.
  - fs. fs. eapply wp_mono; [eapply e_expect_name; eauto|]. cbv beta. intros _ p' H. apply (R_trans HR H).
Qed.
Lemma tyatom_first t : tyatom t -> exists k r, yield t = k :: r /\ In k [KInt; KBool; KStringTy; KName; KLeftParen].
Proof. intros H. inversion H as [| | |l Hl|]; subst; cbn; eauto 10. inversion Hl; subst; cbn; eauto 10. Qed.
Lemma tyatoms_dot ts rest : Forall tyatom ts -> not_dot rest -> not_dot (yields ts ++ rest).
Proof.
  intros H Hr. destruct H as [|t ts Ht _]; auto. destruct (tyatom_first Ht) as (k & r & E & Hk). unfold not_dot. cbn. rewrite E. cbn. intros F. injection F as ->.
  cbn in Hk. intuition discriminate.
Qed.
Lemma tstop_dot ks : tstop' ks -> not_dot ks.
Proof. intros (k & r & -> & H). cbn. unfold not_dot. cbn. intros F. injection F as ->. intuition discriminate. Qed.
Lemma f_some B (mm : M (option nat)) t (X : option nat -> M B) p ks (Q : B -> pstate -> Prop) :
  K p = yield t ++ ks -> wp mm p (fun o p' => exists m, o = Some m /\ RC p p' m t) ->
  (forall m p1, RC p p1 m t -> R p1 p1 [] -> K p1 = ks -> wp (X (Some m)) p1 Q) -> wp (bind mm X) p Q.
Proof.
  intros HK H HX. eapply wp_seq; [exact H|]. cbv beta. intros o p1 (m & -> & HC). apply HX; auto; [apply Rr|]. eapply R_K; [apply (RC_R HC)|]. cbn. rewrite app_nil_r. auto.
Qed.
Ltac lens := unfold yields in *; repeat (rewrite ?app_length; cbn [length]); repeat match goal with H : context [length (_ ++ _)] |- _ => rewrite app_length in H | H : context [length (_ :: _)] |- _ => progress cbn [length] in H end; lia.
Ltac len := rewrite K_cnt; unfold yields in *; repeat match goal with HK : K ?p = _ |- context [K ?p] => rewrite HK end; repeat (rewrite ?app_length, ?app_nil_r; cbn [length app yield name yields flat_map]); repeat match goal with H : context [length (_ ++ _)] |- _ => rewrite app_length in H | H : context [length (_ :: _)] |- _ => progress cbn [length] in H end; lia.
Ltac begin Hf HK := rewrite K_cnt, HK in Hf; norm Hf; rewrite ?app_length in Hf; cbn [length] in Hf; norm HK.
Ltac some := match goal with HC : RC ?p ?q ?m ?t |- exists m', Some ?x = Some m' /\ RC _ _ _ _ => eexists; split; [reflexivity|]; rc end.
Lemma no_dot ks : not_dot ks -> is_kind (hd_error ks) KDot = false.
Proof. intros H. destruct (is_kind (hd_error ks) KDot) eqn:F; auto. apply is_kind_iff in F. contradiction. Qed.
Lemma path_inv l : path l -> exists l', l = name :: l' /\ path (name :: l').
Proof. intros H. inversion H; subst; eexists; split; eauto. Qed.
Lemma atom_none n p k r : K p = k :: r -> ~ In k [KInt; KBool; KStringTy; KName; KLeftParen; KRec] -> wp (atom_type (S n)) p (fun o p' => o = None /\ R p p' []).
Proof.
  intros HK Hk. pose proof (Rr p) as HR. cbn [atom_type]. destruct k; try (exfalso; apply Hk; cbn; tauto); repeat fs; auto.
Qed.
Lemma yields_len (P : elem -> Prop) l : (forall t, P t -> yield t <> []) -> Forall P l -> length l <= length (yields l).
Proof.
  intros H. induction 1 as [|t l Ht _ IH]; cbn; auto. rewrite app_length. fold (yields l). specialize (H _ Ht). destruct (yield t); [congruence|cbn; lia].
Qed.
Lemma tyatoms_len ts : Forall tyatom ts -> length ts <= length (yields ts).
Proof. apply yields_len. intros t H. destruct (tyatom_first H) as (k & r & -> & _). discriminate. Qed.
Lemma types_fwd : forall n,
  (forall p t rest, ty t -> K p = yield t ++ rest -> tstop rest -> 10 * cnt p + 4 <= n -> wp (type_ n) p (fun _ p' => R p p' [t])) /\
  (forall p t rest, simple t -> K p = yield t ++ rest -> tstop' rest -> 10 * cnt p + 3 <= n ->
     wp (non_fn_type n) p (fun o p' => exists m, o = Some m /\ RC p p' m t)) /\
  (forall p t rest, tyatom t -> K p = yield t ++ rest -> not_dot rest -> 10 * cnt p + 2 <= n ->
     wp (atom_type n) p (fun o p' => exists m, o = Some m /\ RC p p' m t)).
Proof.
  induction n as [|n (IHt & IHn & IHa)]; [split; [|split]; intros; lia|]. split; [|split]; intros p t rest Ht HK Hs Hf; pose proof (Rr p) as HR.
  - cbn [type_]. inversion Ht as [t' H|a b Ha Hb]; subst.
    + begin Hf HK. fs. eapply f_some; [exact HK|eapply IHn; eauto; [destruct Hs as (k & r & -> & [->| ->]); eexists _, _; eauto|len]|].
      clear HK. intros m q HC HR1 HK. destruct Hs as (k & r & -> & [->| ->]); fs; fs.
      all: apply (R_trans HR (R_trans (RC_R HC) HR1)).
    + begin Hf HK. fs. eapply f_some; [exact HK|eapply IHn; eauto; [eexists _, _; eauto|len]|].
      clear HK. intros m q HC HR1 HK. fs. eapply f_precede; [exact HC|exact HR1|exact HK|]. clear HK HR1. intros x q1 HP HR1 HK. fs.
      fcall b IHt; [len|]. eapply f_complete2; [exact HP|exact HR1|exact HK|eapply ginner2; eauto; discriminate|]. intros ? HC2 HK2. fs. apply (R_trans HR (RC_R HC2)).
  - cbn [non_fn_type]. inversion Ht as [t' H|l ts Hl Hts]; subst.
    + destruct (tyatom_first H) as (k & r & E & Hk). destruct (kind_eq_dec k KName) as [->|Hn].
      * assert (exists l, t = Node NamedType l /\ path l) as (l & -> & Hl) by (inversion H; subst; cbn in E; try discriminate; eauto). destruct (path_inv Hl) as (l' & -> & Hl'). begin Hf HK. fs. fs. fs.
        fcalls l' e_dotted; [apply tstop_dot; auto|]. eapply f_call with (t := []); [exact HR0|exact HK| |].
        -- destruct n as [|[|n]]; [cbn in Hf; lia|cbn in Hf; lia|]. cbn [while_]. destruct Hs as (k & r' & -> & Hk').
           eapply wp_seq with (Q := fun b p' => b = false /\ R p3 p' []); [apply wp_bind; eapply wp_mono; [eapply atom_none; [exact HK|cbn; intuition (subst; discriminate)]|]|].
           ++ cbv beta. intros o p' [-> H']. apply wp_ret. exact (conj eq_refl H').
           ++ cbv beta. intros b p' [-> H']. fs. auto.
        -- clear HR0 HK. intros _ q HR0 HK. fs. fs. rewrite app_nil_r in HC. some.
      * begin Hf HK. fs. replace (is_kind (hd_error (yield t ++ rest)) KName) with false by (rewrite E; destruct Hk as [<-|[<-|[<-|[<-|[<-|[]]]]]]; try reflexivity; contradiction). cbv iota.
        eapply wp_mono; [eapply IHa; eauto; [apply tstop_dot; auto|len]|]. cbv beta. intros o p' (m & -> & HC). some.
    + destruct (path_inv Hl) as (l' & -> & Hl'). rewrite <- app_comm_cons in *. begin Hf HK. cbn [yields flat_map] in *. fold (yields l') (yields ts) in *. rewrite ?app_length in Hf.
      fs. fs. fs. fcalls l' e_dotted; [apply tyatoms_dot; auto; apply tstop_dot; auto|].
      eapply f_call with (t := ts); [exact HR0|exact HK| |].
      * destruct Hs as (k & r' & -> & Hk').
        eapply wp_mono; [eapply f_while with (l := ts) (I := fun l q => exists done, ts = done ++ l /\ R q q [] /\ R p3 q done /\ K q = yields l ++ k :: r') (I' := fun q => R p3 q ts)|].
        -- intros x l q (done & Ed & Hr & H0 & HKq). assert (Hx : tyatom x /\ Forall tyatom l) by (rewrite Ed in Hts; apply Forall_app in Hts as [_ Hts]; inversion Hts; auto). destruct Hx as [Hx Hl0].
           eapply f_some; [cbn [yields flat_map] in HKq; rewrite <- app_assoc in HKq; exact HKq|eapply IHa; [exact Hx|cbn [yields flat_map] in HKq; rewrite <- app_assoc in HKq; exact HKq|apply tyatoms_dot; auto|]|].
           ++ apply tstop_dot. eexists _, _; eauto.
           ++ rewrite Ed, yields_app in Hf. cbn [yields flat_map] in Hf. fold (yields l) in Hf. len.
           ++ intros m1 q1 HC1 HR1 HK1. fs. split; auto. exists (done ++ [x]). rewrite <- app_assoc. split; auto. split; auto. split; auto. apply (R_trans H0 (RC_R HC1)).
        -- intros q (done & Ed & Hr & H0 & HKq). rewrite app_nil_r in Ed. subst done. destruct n as [|n]; [lia|]. apply wp_bind. eapply wp_mono; [eapply atom_none; [exact HKq|cbn; intuition (subst; discriminate)]|].
           cbv beta. intros o q' [-> H']. fs. split; auto. pose proof (R_trans H0 H') as Y. rewrite app_nil_r in Y. auto.
        -- exists []. split; auto. split; [apply Rr|]. split; [apply Rr|]. auto.
        -- pose proof (tyatoms_len Hts). lia.
        -- auto.
      * clear HR0 HK. intros _ q HR0 HK. fs. fs. some.
  - cbn [atom_type]. inversion Ht as [| | |l Hl|t' Ht']; subst; begin Hf HK.
    + repeat fs. some.
    + repeat fs. some.
    + repeat fs. some.
    + destruct (path_inv Hl) as (l' & -> & Hl'). norm HK. do 7 fs. fcalls l' e_dotted. fs. fs. some.
    + do 8 fs. fcall t' IHt; [eexists _, _; eauto|len|]. fs. fs. fs. some.
Qed.

(** ** Expressions *)
Definition stops := [KSemicolon; KWith; KThen; KElse; KEnd; KPipe; KRightParen].
Definition estop (ks : list kind) : Prop := exists k r, ks = k :: r /\ In k stops.
Definition opstop (m : nat) (ks : list kind) : Prop := exists k r, ks = k :: r /\ (In k stops \/ exists q, level k = Some q /\ q < m).
Definition appstop (ks : list kind) : Prop := exists k r, ks = k :: r /\ (In k stops \/ level k <> None).
Lemma e_annotation n ann p ks : annot ann -> K p = yields ann ++ KEquals :: ks -> 10 * cnt p + 4 <= n -> wp (annotation n) p (fun _ p' => R p p' ann).
Proof.
  intros Ha HK Hf. pose proof (Rr p) as HR. unfold annotation. destruct Ha as [|t Ht]; begin Hf HK.
  - fs. fs. auto.
  - fs. fs. eapply wp_mono; [eapply types_fwd; eauto; [eexists _, _; eauto|len]|]. cbv beta. intros _ p' H. apply (R_trans HR H).
Qed.
Lemma names_yield c : yields (repeat name c) = repeat KName c.
Proof. induction c; cbn; auto. f_equal. auto. Qed.
Lemma e_names n c p ks : K p = repeat KName c ++ ks -> hd_error ks <> Some KName -> c < n -> wp (names n) p (fun _ p' => R p p' (repeat name c)).
Proof.
  intros HK Hk Hn. unfold names. eapply wp_mono; [eapply f_while with (l := repeat KName c) (I := fun l q => exists a b, l = repeat KName b /\ a + b = c /\ R p q (repeat name a) /\ K q = repeat KName b ++ ks) (I' := fun q => R p q (repeat name c))|].
  - intros x l q (a & b & El & Ec & HR & HKq). destruct b as [|b]; [discriminate|]. cbn in El. injection El as -> El. cbn in HKq. fs. fs. fs. split; auto. exists (S a), b. split; auto. split; [lia|]. split; auto.
    replace (repeat name (S a)) with (repeat name a ++ [name]); auto. change [name] with (repeat name 1). rewrite <- repeat_app. f_equal. lia.
  - intros q (a & b & El & Ec & HR & HKq). destruct b; [|discriminate]. replace a with c in HR by lia. cbn in HKq. fs. replace (is_kind (hd_error ks) KName) with false; [fs; auto|].
    destruct (is_kind (hd_error ks) KName) eqn:F; auto. apply is_kind_iff in F. contradiction.
  - exists 0, c. repeat split; auto. apply Rr.
  - rewrite repeat_length. auto.
  - auto.
Qed.
Definition atoms := [KLeftParen; KTrue; KFalse; KNumber; KString; KName; KHole].
Lemma exatom_first t : exatom t -> exists k r, yield t = k :: r /\ In k atoms.
Proof. intros H. inversion H; subst; cbn; eexists _, _; (split; [reflexivity|]); cbn; tauto. Qed.
Lemma exatoms_dot ts rest : Forall exatom ts -> not_dot rest -> not_dot (yields ts ++ rest).
Proof.
  intros H Hr. destruct H as [|t ts Ht _]; auto. destruct (exatom_first Ht) as (k & r & E & Hk). unfold not_dot. cbn. rewrite E. cbn. intros F. injection F as ->.
  cbn in Hk. intuition discriminate.
Qed.
Lemma exatoms_len ts : Forall exatom ts -> length ts <= length (yields ts).
Proof. apply yields_len. intros t H. destruct (exatom_first H) as (k & r & -> & _). discriminate. Qed.
Definition mk_app (f a : elem) : elem := Node ApplyExpr [f; a].
Lemma app_spine e : app_ e -> exists a l, exatom a /\ Forall exatom l /\ e = fold_left mk_app l a /\ yield e = yield a ++ yields l.
Proof.
  induction 1 as [e H|f a Hf (b & l & Hb & Hl & -> & E) Ha].
  - exists e, []. cbn. rewrite app_nil_r. auto.
  - exists b, (l ++ [a]). split; auto. split; [apply Forall_app; auto|]. rewrite fold_left_app. split; auto. cbn [yield flat_map]. rewrite E, yields_app. cbn. rewrite !app_nil_r, app_assoc. auto.
Qed.
Definition mk_op (f : elem) (x : kind * elem) : elem := Node BinaryExpr [f; Node BinaryOp [Tok (fst x)]; snd x].
Definition yops (l : list (kind * elem)) : list kind := flat_map (fun x => fst x :: yield (snd x)) l.
Fixpoint opsl (m : nat) (l : list (kind * elem)) : Prop :=
  match l with
  | [] => True
  | x :: l => (exists p, level (fst x) = Some p /\ m <= p /\ ops (S p) (snd x) /\ match l with y :: _ => exists q, level (fst y) = Some q /\ q <= p | [] => True end) /\ opsl m l
  end.
Lemma opsl_snoc m p op b : level op = Some p -> m <= p -> ops (S p) b -> forall l, opsl p l -> opsl m (l ++ [(op, b)]).
Proof.
  intros H1 H2 H3. induction l as [|x l IH]; cbn [opsl app].
  - intros _. split; auto. exists p. auto.
  - intros [(q & A & B & C & D) E]. split; auto. exists q. split; auto. split; [lia|]. split; auto. destruct l as [|y l]; cbn [app]; eauto.
Qed.
Lemma ops_spine m e : ops m e -> exists a l, app_ a /\ opsl m l /\ e = fold_left mk_op l a /\ yield e = yield a ++ yops l.
Proof.
  induction 1 as [m e H|m op p a b H1 H2 Ha (c & l & Hc & Hl & -> & E) Hb _].
  - exists e, []. cbn. rewrite app_nil_r. auto.
  - exists c, (l ++ [(op, b)]). split; auto. split; [eapply opsl_snoc; eauto|]. rewrite fold_left_app. split; auto. unfold yops. rewrite flat_map_app. cbn [yield flat_map app fst snd]. rewrite E. norm E. rewrite !app_nil_r, <- app_assoc. auto.
Qed.
Lemma app_node e : app_ e -> exists k l, e = Node k l /\ k <> BinaryExpr.
Proof. intros H. inversion H as [e' Ha|]; subst; [|eexists _, _; split; eauto; discriminate]. inversion Ha; subst; eexists _, _; (split; [reflexivity|discriminate]). Qed.
Lemma ops_node m e : ops m e -> exists k l, e = Node k l.
Proof. intros H. inversion H as [? ? Ha|]; subst; eauto. destruct (app_node Ha) as (k & l & -> & _). eauto. Qed.
Lemma ops_level m e q : ops m e -> top_level e q -> m <= q.
Proof.
  intros H (l & op & r & -> & Hq). inversion H as [? ? Ha|? ? p a b H1 H2]; subst.
  - destruct (app_node Ha) as (k & l' & E' & Hk). congruence.
  - congruence.
Qed.
Lemma app_first e : app_ e -> exists k r, yield e = k :: r /\ In k atoms.
Proof. intros H. destruct (app_spine H) as (a & l & Ha & _ & _ & ->). destruct (exatom_first Ha) as (k & r & -> & Hk). cbn. eauto. Qed.
Lemma ops_first m e : ops m e -> exists k r, yield e = k :: r /\ In k atoms.
Proof. intros H. destruct (ops_spine H) as (a & l & Ha & _ & _ & ->). destruct (app_first Ha) as (k & r & -> & Hk). cbn. eauto. Qed.
Lemma exatom_none n p k r : K p = k :: r -> ~ In k atoms -> wp (atom_expr (S n)) p (fun o p' => o = None /\ R p p' []).
Proof.
  intros HK Hk. pose proof (Rr p) as HR. cbn [atom_expr]. destruct k; try (exfalso; apply Hk; cbn; tauto); repeat fs; auto.
Qed.
Lemma appstop_atoms k : In k stops \/ level k <> None -> ~ In k atoms /\ k <> KDot.
Proof. intros H. split; [intros F|intros ->]; cbn in *; [|intuition congruence]. intuition (subst; cbn in *; congruence). Qed.

Lemma e_while_at k (f : M unit) (P : elem -> Prop) cs rest n p : k <> KError -> (forall c, P c -> exists r, yield c = k :: r) -> hd_error rest <> Some k -> Forall P cs ->
  (forall c q r, P c -> K q = yield c ++ r -> hd_error r = Some k \/ r = rest -> cnt q <= cnt p -> wp f q (fun _ p' => R q p' [c])) ->
  K p = yields cs ++ rest -> length cs < n -> wp (while_ n (b <- at_ k ;; if b then f ;; ret true else ret false)) p (fun _ p' => R p p' cs).
Proof.
  intros Hke Hy Hr Hcs Hf HK Hn.
  eapply wp_mono; [eapply f_while with (l := cs) (I := fun l q => exists done, cs = done ++ l /\ R p q done /\ K q = yields l ++ rest) (I' := fun q => R p q cs)|]; auto.
  - intros x l q (done & Ed & HR & HKq). assert (Hx : P x /\ Forall P l) by (rewrite Ed in Hcs; apply Forall_app in Hcs as [_ Hcs]; inversion Hcs; auto). destruct Hx as [Hx Hl].
    destruct (Hy _ Hx) as (r & Er). assert (E1 : is_kind (hd_error (yields (x :: l) ++ rest)) k = true) by (cbn; rewrite Er; apply is_kind_iff; auto).
    pose proof (R_cnt HR) as Hc. eapply f_at; [exact HR|exact HKq|]. rewrite E1. clear HR HKq. intros q1 HR HKq. pose proof (R_cnt HR) as Hc1. cbn [yields flat_map] in HKq. rewrite <- app_assoc in HKq. fold (yields l) in HKq.
    eapply f_call1 with (t := x); [exact HR|exact HKq|eapply Hf; [exact Hx|exact HKq| |lia]|].
    + destruct l as [|y l]; auto. left. inversion Hl as [|? ? Hy' _]; subst. destruct (Hy _ Hy') as (r' & Er'). cbn. rewrite Er'. auto.
    + intros _ q2 HR2 HK2. fs. split; auto. exists (done ++ [x]). rewrite <- app_assoc. auto.
  - intros q (done & Ed & HR & HKq). rewrite app_nil_r in Ed. subst done. eapply f_at; [exact HR|exact HKq|]. cbn [yields flat_map app]. destruct (is_kind (hd_error rest) k) eqn:F; [apply is_kind_iff in F; contradiction|].
    intros q1 HR1 HK1. fs. auto.
  - exists []. split; auto. split; [apply Rr|auto].
Qed.
Ltac done := match goal with HR : R ?p ?q [], HC : RC ?q ?r _ _ |- R ?p ?r _ => repeat (cbn [app] in HC; rewrite <- ?app_assoc in HC); exact (R_trans HR (RC_R HC)) end.
Ltac somex := match goal with HC : RC ?p ?q ?m ?t |- exists m', Some ?x = Some m' /\ RC _ _ _ _ => repeat (cbn [app] in HC; rewrite <- ?app_assoc in HC); eexists; split; [reflexivity|]; rc end.
Lemma mcase_first c : mcase c -> exists r, yield c = KPipe :: r.
Proof. intros H. inversion H; subst. cbn. eauto. Qed.
Lemma mcases_len cs : Forall mcase cs -> length cs <= length (yields cs).
Proof. apply yields_len. intros t H. destruct (mcase_first H) as (r & ->). discriminate. Qed.
Lemma yops_len l : length l <= length (yops l).
Proof. induction l as [|x l IH]; cbn; auto. rewrite app_length. fold (yops l). lia. Qed.
Lemma bp_level k p : level k = Some p -> binding_power k = Some (p, S p).
Proof. intros H. pose proof (binding_level k) as B. destruct (binding_power k) as [[a b]|]; [destruct B as [B ->]|]; congruence. Qed.
Lemma stops_level k : In k stops -> level k = None.
Proof. cbn. intuition (subst; auto). Qed.
Lemma bp_none k : level k = None -> binding_power k = None.
Proof. intros H. pose proof (binding_level k) as B. destruct (binding_power k) as [[a b]|]; auto. destruct B; congruence. Qed.
Lemma exprs_fwd : forall n,
  (forall p e rest, ex e -> K p = yield e ++ rest -> estop rest -> 10 * cnt p + 5 <= n -> wp (expr n) p (fun _ p' => R p p' [e])) /\
  (forall p e rest, mcase e -> K p = yield e ++ rest -> estop rest -> 10 * cnt p + 3 <= n -> wp (match_case n) p (fun _ p' => R p p' [e])) /\
  (forall p m e rest, ops m e -> K p = yield e ++ rest -> opstop m rest -> 10 * cnt p + 4 <= n -> wp (op_expr n m) p (fun _ p' => R p p' [e])) /\
  (forall p e rest, app_ e -> K p = yield e ++ rest -> appstop rest -> 10 * cnt p + 3 <= n ->
     wp (apply_expr n) p (fun o p' => exists m, o = Some m /\ RC p p' m e)) /\
  (forall p e rest, exatom e -> K p = yield e ++ rest -> not_dot rest -> 10 * cnt p + 2 <= n ->
     wp (atom_expr n) p (fun o p' => exists m, o = Some m /\ RC p p' m e)).
Proof.
  induction n as [|n (IHe & IHm & IHo & IHp & IHa)]; [repeat split; intros; lia|].
  assert (stopI : forall k r, In k stops -> estop (k :: r)) by (intros k r H; eexists _, _; eauto).
  split; [|split; [|split; [|split]]].
  - intros p e rest He HK Hs Hf. pose proof (Rr p) as HR. cbn [expr]. inversion He as [e' H|ann v b Ha Hv Hb|d cs Hd Hcs|c t b Hc Ht Hb|b Hb|b Hb]; subst; begin Hf HK.
    + destruct (ops_first H) as (k & r & E & Hk). rewrite E in HK.
      assert (G : forall q, R p q [] -> K q = yield e ++ rest -> wp (op_expr n 0) q (fun _ p' => R p p' [e])).
      { intros q HRq HKq. eapply wp_mono; [eapply IHo; eauto; [destruct Hs as (k' & r' & -> & Hk'); eexists _, _; eauto|len]|]. cbv beta. intros _ p' H'. apply (R_trans HRq H'). }
      cbn in Hk. destruct Hk as [<-|[<-|[<-|[<-|[<-|[<-|[<-|[]]]]]]]]; cbn [app] in HK; do 5 fs; (apply G; [auto|rewrite E; exact HK]).
    + do 5 fs. fcalls ann e_annotation; [len|]. fs. fcall v IHe; [apply stopI; cbn; tauto|len|]. fs. fcall b IHe; [len|]. fs. fs. done.
    + do 5 fs. fcall d IHe; [apply stopI; cbn; tauto|len|]. fs.
      eapply f_call with (t := cs); [exact HR0|exact HK| |].
      * apply e_while_at with (P := mcase) (rest := KEnd :: rest); auto; try discriminate.
        -- apply mcase_first.
        -- intros c q r Hc HKq Hr Hq. eapply IHm; eauto; [destruct Hr as [Hr| ->]; [destruct r as [|k r]; [discriminate|]; injection Hr as ->|]; apply stopI; cbn; tauto|].
           revert Hq. rewrite (K_cnt p6), HK. intros Hq. lens.
        -- pose proof (mcases_len Hcs). lens.
      * clear HR0 HK. intros _ q HR0 HK. fs. fs. fs. done.
    + do 6 fs. fcall c IHe; [apply stopI; cbn; tauto|len|]. fs. fcall t IHe; [apply stopI; cbn; tauto|len|]. fs. fcall b IHe; [len|]. fs. fs. done.
    + do 12 fs. fcall b IHe; [len|]. fs. fs. done.
    + do 12 fs. fcall b IHe; [len|]. fs. fs. done.
  - intros p e rest He HK Hs Hf. pose proof (Rr p) as HR. cbn [match_case]. inversion He as [l c b Hl Hb]; subst. destruct (path_inv Hl) as (l' & -> & Hl'). begin Hf HK.
    fold (yields (repeat name c)) in *. rewrite names_yield in *.
    fs. fs. fs. fcalls l' e_dotted; [destruct c; discriminate|]. fs.
    eapply f_call with (t := repeat name c); [exact HR1|rewrite names_yield; exact HK|eapply e_names; [exact HK|discriminate|]|].
    { rewrite ?app_length, repeat_length in Hf. lia. }
    clear HR1 HK. intros _ q HR1 HK. fs. pose proof (R_trans HR0 (RC_R HC)) as HR2. clear HR0 HC. fs. fcall b IHe; [len|]. fs. fs. done.
  - intros p m e rest He HK Hs Hf. pose proof (Rr p) as HR. cbn [op_expr]. destruct (ops_spine He) as (a & l & Ha & Hl & Ee & Ey). rewrite Ey in HK. begin Hf HK.
    destruct (app_first Ha) as (ka & ra & Ea & _). fs. 
    eapply f_some; [exact HK|eapply IHp; [exact Ha|exact HK| |rewrite K_cnt, HK, !app_length; lia]|].
    { destruct l as [|x l]; cbn in Hl |- *; [destruct Hs as (k & r & -> & [H|(q & H & _)]); eexists _, _; (split; [reflexivity|]); [auto|right; congruence]|].
      destruct Hl as [(q & Hq & _) _]. eexists _, _. split; [reflexivity|]. right. congruence. }
    clear HK. intros m0 q HC HRq HK. fs.
    pose proof (RC_post HC HRq) as HC0. clear HC HRq.
    eapply wp_seq; [eapply f_while_with with (l := l) (I' := fun _ s => R p0 s [e])
      (I := fun l' mm s => exists cur, RC p0 s mm cur /\ e = fold_left mk_op l' cur /\ opsl m l' /\ K s = yops l' ++ rest /\
              length (K s) < length (yield a) + length (yops l) + length rest /\ (exists k c, cur = Node k c) /\
              match l' with x :: _ => forall q, top_level cur q -> forall r, level (fst x) = Some r -> r <= q | [] => True end)|..].
    + intros [op b] l' mm s (cur & HC & E & Hl' & HKs & HL & Hnode & Htop). cbn [fst snd] in *. destruct Hl' as [(pw & Hlev & Hm & Hb & Hnext) Hl']. cbn [fst snd] in *.
      pose proof (Rr s) as HRs. cbn [yops flat_map fst snd app] in HKs. fold (yops l') in HKs. rewrite <- app_assoc in HKs. rewrite HKs in HL. cbn [length] in HL. rewrite ?app_length in HL. fs. rewrite (bp_level _ Hlev). replace (pw <? m) with false by (symmetry; apply Nat.ltb_ge; auto).
      eapply f_precede; [exact HC|exact HRs|exact HKs|]. clear HRs HKs. intros x s3 HP HR3 HKs. fs. fs. fs. match goal with HC1 : RC _ _ _ (Node BinaryOp _) |- _ => pose proof (R_trans HR3 (RC_R HC1)) as HR4; clear HR3 HC1 end.
      cbn [app] in HR4. eapply f_call1 with (t := b); [exact HR4|exact HKs|eapply IHo; [exact Hb|exact HKs| |]|].
      * destruct l' as [|y l']; cbn [yops flat_map app fst snd]; [|destruct Hnext as (q' & Hq' & Hle); eexists _, _; split; [reflexivity|]; right; exists q'; split; auto; lia].
        destruct Hs as (k & r & -> & [Hk|(q' & Hq' & Hlt)]); eexists _, _; (split; [reflexivity|]); [auto|right; exists q'; split; auto; lia].
      * rewrite K_cnt, HKs. lens.
      * clear HR4 HKs. intros _ s5 HR5 HK5. cbn [app] in HR5. pose proof (RC_R HC) as HRcur. apply R_grp in HRcur. pose proof (R_grp HR5) as Hg5.
        eapply f_complete2; [exact HP|exact HR5|exact HK5| |].
        -- cbn [app]. eapply gi_binary; eauto.
           ++ inversion HRcur; auto.
           ++ inversion Hg5; auto.
           ++ left. destruct (ops_node Hb) as (kb & lb & ->). eauto.
           ++ intros y [<-|[]] q' Hq'. pose proof (ops_level Hb Hq'). lia.
        -- cbn [app]. intros s6 HC6 HK6. pose proof (Rr s6) as HR6. fs. fs. eexists. split; [reflexivity|]. exists (Node BinaryExpr [cur; Node BinaryOp [Tok op]; b]). split; [apply (RC_post HC6 HR6)|].
           split; [exact E|]. split; auto. split; auto. split; [|split; [eauto|]].
           ++ rewrite HK6. lens.
           ++ destruct l' as [|y l']; auto. destruct Hnext as (q' & Hq' & Hle). intros q1 (c1 & o1 & r1 & E1 & L1) r Hr. injection E1 as <- <- <-. rewrite Hlev in L1. injection L1 as <-. rewrite Hq' in Hr. injection Hr as <-. auto.
    + intros mm s (cur & HC & E & _ & HKs & _). cbn [fold_left yops flat_map app] in *. pose proof (Rr s) as HRs. destruct Hs as (k & r & Er & Hk). rewrite Er in HKs. fs.
      subst cur. pose proof (R_trans (RC_R HC) HRs) as HF. cbn [app] in HF.
      destruct Hk as [Hk|(q' & Hq' & Hlt)]; [rewrite (bp_none _ (stops_level Hk)); fs; auto|].
      rewrite (bp_level _ Hq'). replace (q' <? m) with true by (symmetry; apply Nat.ltb_lt; auto). fs. auto.
    + exists a. destruct (app_node Ha) as (k & c & Ek & Hk). split; auto. split; auto. split; auto. split; auto. split; [|split; [eauto|]].
      * rewrite HK, Ea. lens.
      * destruct l; auto. intros q' (c1 & o1 & r1 & E1 & _). congruence.
    + pose proof (yops_len l). rewrite Ea in Hf. lens.
    + cbv beta. intros _ s HRs. fs. apply (R_trans HR HRs).
  - intros p e rest He HK Hs Hf. pose proof (Rr p) as HR. cbn [apply_expr]. destruct (app_spine He) as (a & l & Ha & Hl & Ee & Ey). rewrite Ey in HK. begin Hf HK. fold (yields l) in *.
    destruct (exatom_first Ha) as (ka & ra & Ea & _). destruct Hs as (k & r & -> & Hk). destruct (appstop_atoms Hk) as [Hka Hkd].
    assert (Hd : not_dot (k :: r)) by (unfold not_dot; cbn; congruence).
    eapply f_some; [exact HK|eapply IHa; [exact Ha|exact HK|apply exatoms_dot; auto|rewrite K_cnt, HK; lens]|].
    clear HK. intros m0 q HC HRq HK.
    eapply wp_seq; [eapply f_while_with with (l := l) (I' := fun mm s => RC p s mm e)
      (I := fun l' mm s => exists cur, RC p s mm cur /\ e = fold_left mk_app l' cur /\ Forall exatom l' /\ K s = yields l' ++ k :: r /\
              length (K s) < length (yield a) + length (yields l) + length (k :: r))|..].
    + intros b l' mm s (cur & HC1 & E & Hl' & HKs & HL). inversion Hl' as [|? ? Hb Hl'']; subst. cbn [yields flat_map] in HKs. fold (yields l') in HKs. rewrite <- app_assoc in HKs. rewrite HKs in HL. rewrite ?app_length in HL.
      eapply f_some; [exact HKs|eapply IHa; [exact Hb|exact HKs|apply exatoms_dot; auto|rewrite K_cnt, HKs; lens]|]. clear HKs. intros m1 s1 HCb HR1 HK1.
      eapply f_precede; [exact HC1|apply (RC_R HCb)|exact HK1|]. intros x s2 HP HR2 HK2. eapply f_complete2; [exact HP|exact HR2|exact HK2|eapply ginner2; eauto; discriminate|].
      cbn [app]. intros s3 HC3 HK3. fs. eexists. split; [reflexivity|]. eexists. split; [exact HC3|]. split; [exact E|]. split; auto. split; auto. rewrite HK3. destruct (exatom_first Hb) as (kb & rb & Eb & _). rewrite Eb in HL. lens.
    + intros mm s (cur & HC1 & E & _ & HKs & _). cbn [fold_left yields flat_map app] in *. subst cur. destruct n as [|n']; [lia|].
      eapply wp_seq; [eapply exatom_none; [exact HKs|exact Hka]|]. cbv beta. intros o s1 [-> HR1]. fs. split; auto. apply (RC_post HC1 HR1).
    + exists a. split; auto. split; auto. split; auto. split; auto. rewrite HK, Ea. lens.
    + pose proof (exatoms_len Hl). rewrite Ea in Hf. lens.
    + cbv beta. intros mm s HCs. fs. eauto.
  - intros p e rest He HK Hs Hf. pose proof (Rr p) as HR. cbn [atom_expr]. inversion He as [b Hb| | | | | | |]; subst; begin Hf HK.
    + do 4 fs. fcall b IHe; [apply stopI; cbn; tauto|len|]. fs. fs. fs. somex.
    + repeat fs. some.
    + repeat fs. some.
    + repeat fs. some.
    + repeat fs. some.
    + repeat fs. rewrite (no_dot Hs). fs. fs. some.
    + repeat fs. some.
    + repeat fs. some.
Qed.
