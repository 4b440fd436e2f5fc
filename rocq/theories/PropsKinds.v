(** C48, kinds: in an accepted program every type has the number of arguments it is declared with. *)
From Verif Require Import VerifyState.
From Verif Require Import Typeck TypeckSpec TypeckProg PropsTypeck.
Set Implicit Arguments.

(** ** Specification *)
(** A named type occurs in a type with so many arguments. *)
Inductive applied : irty -> sym -> nat -> Prop :=
| ap_here s args : applied (IrNamed s args) s (length args)
| ap_arg s args t s' n : In t args -> applied t s' n -> applied (IrNamed s args) s' n
| ap_from a b s n : applied a s n -> applied (IrFn a b) s n
| ap_to a b s n : applied b s n -> applied (IrFn a b) s n.
(** The annotations in an expression, and the type variables they introduce. *)
Fixpoint expr_anns (e : rexpr) : list (list sym * irty) :=
  match e with
  | RName _ | RBoolean _ | RNumber _ | RStr _ | RHole _ => []
  | RApply a b | RBinary a _ b | RPipe a b => expr_anns a ++ expr_anns b
  | RLet _ ann v e => match ann with Some a => [a] | None => [] end ++ expr_anns v ++ expr_anns e
  | RMatch d cases => expr_anns d ++ flat_map (fun c => expr_anns (snd c)) cases
  | RIf a b c => expr_anns a ++ expr_anns b ++ expr_anns c
  | RLam _ _ b => expr_anns b
  | RParen e => expr_anns e
  end.
Definition item_anns (r : ritem) : list (list sym * irty) :=
  match r with
  | RTy _ ps cs => flat_map (fun c => flat_map (fun f => match f with Some t => [(ps, t)] | None => [] end) (snd c)) cs
  | RVal _ ann _ b => match ann with Some a => [a] | None => [] end ++ match b with inl _ => [] | inr e => expr_anns e end
  end.
Definition item_vars (r : ritem) : list sym := match r with RTy _ ps _ => ps | _ => flat_map fst (item_anns r) end.

(** ** Proof *)
Lemma kind_applied D : forall t s n, applied t s n -> kind_ok D t = true -> exists c, assoc s D = Some (DType n c).
Proof.
  intros t s n H. induction H; cbn [kind_ok]; intros K.
  - apply andb_true_iff in K as [K _]. destruct (assoc s D) as [[| |m c]|]; try discriminate. apply Nat.eqb_eq in K. subst. eauto.
  - apply andb_true_iff in K as [_ K]. rewrite forallb_forall in K. auto.
  - apply andb_true_iff in K as [K _]. auto.
  - apply andb_true_iff in K as [_ K]. auto.
Qed.
Lemma rexpr_size_ind (P : rexpr -> Prop) : (forall e, (forall e', In e' (match e with
  | RName _ | RBoolean _ | RNumber _ | RStr _ | RHole _ => []
  | RApply a b | RBinary a _ b | RPipe a b => [a; b]
  | RLet _ _ v e => [v; e]
  | RMatch d cases => d :: map snd cases
  | RIf a b c => [a; b; c]
  | RLam _ _ b => [b]
  | RParen e => [e]
  end) -> P e') -> P e) -> forall e, P e.
Proof.
  intros H. fix F 1. intros e. apply H. destruct e; cbn [In]; intros e' I.
  all: try (destruct I; fail).
  all: try (repeat (destruct I as [<-|I]; [apply F|]); destruct I; fail).
  destruct I as [<-|I]; [apply F|]. revert I. induction cases as [|c cases IH]; cbn; [intros []|]. intros [<-|I]; [apply F|exact (IH I)].
Qed.
Lemma expr_kinds D : forall e, expr_kinds_ok D e = true -> forall a, In a (expr_anns e) -> kind_ok D (snd a) = true.
Proof.
  induction e as [e IH] using rexpr_size_ind. destruct e; cbn [expr_kinds_ok expr_anns]; intros K q Hq; try (destruct Hq; fail); repeat match goal with H : _ && _ = true |- _ => apply andb_true_iff in H as [? ?] end; rewrite ?in_app_iff in Hq.
  1-3: destruct Hq as [Hq|Hq]; [eapply (IH _ (or_introl eq_refl)); eauto|eapply (IH _ (or_intror (or_introl eq_refl))); eauto].
  - destruct Hq as [Hq|[Hq|Hq]]; [|eapply (IH _ (or_introl eq_refl)); eauto|eapply (IH _ (or_intror (or_introl eq_refl))); eauto].
    destruct ann as [[vs t]|]; [|destruct Hq]. destruct Hq as [<-|[]]. auto.
  - destruct Hq as [Hq|Hq]; [eapply (IH _ (or_introl eq_refl)); eauto|]. apply in_flat_map in Hq as (c & Hc & Hq). match goal with H : forallb _ _ = true |- _ => rewrite forallb_forall in H; specialize (H _ Hc); rename H into F end.
    eapply (IH (snd c)); [right; apply in_map; auto|exact F|exact Hq].
  - destruct Hq as [Hq|[Hq|Hq]]; [eapply (IH _ (or_introl eq_refl)); eauto|eapply (IH _ (or_intror (or_introl eq_refl))); eauto|eapply (IH _ (or_intror (or_intror (or_introl eq_refl)))); eauto].
  - eapply (IH _ (or_introl eq_refl)); eauto.
  - eapply (IH _ (or_introl eq_refl)); eauto.
Qed.
Lemma ann_vars_in ann s n c : In (s, DType n c) (ann_vars ann) -> n = 0 /\ exists a, ann = Some a /\ In s (fst a).
Proof. destruct ann as [[vs t]|]; cbn; [|intros []]. intros H. apply in_map_iff in H as (v & E & Hv). injection E as <- <- <-. eauto. Qed.
Lemma expr_defs_in : forall e s n c, In (s, DType n c) (expr_defs e) -> n = 0 /\ In s (flat_map fst (expr_anns e)).
Proof.
  induction e as [e IH] using rexpr_size_ind. intros s n c. destruct e; cbn [expr_defs expr_anns]; intros H; try (destruct H; fail); rewrite ?flat_map_app, ?in_app_iff in *.
  all: try (destruct H as [H|H]; [destruct (IH _ (or_introl eq_refl) _ _ _ H)|destruct (IH _ (or_intror (or_introl eq_refl)) _ _ _ H)]; auto; fail).
  - destruct H as [H|H]; [destruct ann as [[? ?]|]; discriminate|]. rewrite !in_app_iff in H. destruct H as [H|[H|H]].
    + apply ann_vars_in in H as (-> & a & -> & Ha). split; auto. left. cbn. rewrite app_nil_r. auto.
    + destruct (IH _ (or_introl eq_refl) _ _ _ H). auto.
    + destruct (IH _ (or_intror (or_introl eq_refl)) _ _ _ H). auto.
  - destruct H as [H|H]; [destruct (IH _ (or_introl eq_refl) _ _ _ H); auto|]. apply in_flat_map in H as (q & Hq & H). apply in_app_iff in H as [H|H]; [apply in_map_iff in H as (x & E & _); discriminate|].
    destruct (IH (snd q) (or_intror (in_map snd _ _ Hq)) _ _ _ H) as [-> I]. split; auto. right. apply in_flat_map in I as (a & Ha & I). apply in_flat_map. exists a. split; auto. apply in_flat_map. eauto.
  - destruct H as [H|[H|H]]; [destruct (IH _ (or_introl eq_refl) _ _ _ H)|destruct (IH _ (or_intror (or_introl eq_refl)) _ _ _ H)|destruct (IH _ (or_intror (or_intror (or_introl eq_refl))) _ _ _ H)]; auto.
  - destruct H as [H|H]; [discriminate|]. eapply IH; eauto. left. auto.
  - eapply IH; eauto. left. auto.
Qed.
Definition declared (rs : list ritem) (s : sym) (n : nat) : Prop :=
  (exists ps cs, In (RTy s ps cs) rs /\ length ps = n) \/ (n = 0 /\ exists r, In r rs /\ In s (item_vars r)).
Lemma item_defs_in r s n c rs : In r rs -> In (s, DType n c) (item_defs r) -> declared rs s n.
Proof.
  intros I. destruct r as [s0 ps cs|x ann ex b]; cbn [item_defs]; intros [H|H].
  - injection H as <- <- _. left. eauto.
  - apply in_app_iff in H as [H|H]; apply in_map_iff in H as (v & E & Hv); [|discriminate]. injection E as <- <- _. right. split; auto. eexists. split; [exact I|]. exact Hv.
  - destruct ann as [[? ?]|]; discriminate.
  - apply ann_vars_in in H as (-> & a & -> & Ha). right. split; auto. eexists. split; [exact I|]. cbn. apply in_app_iff. auto.
Qed.
Lemma assoc_in A s (l : list (sym * A)) a : assoc s l = Some a -> In (s, a) l.
Proof. induction l as [|[k b] l IH]; cbn; [discriminate|]. destruct (Nat.eqb_spec k s) as [->|]; [intros E; injection E as ->; auto|auto]. Qed.
Lemma check_item_kinds k G r p : check_item k G r = Done (Some p) -> forall a, In a (item_anns r) ->
  exists D, kind_ok D (snd a) = true /\ forall s n c, In (s, DType n c) D -> In (s, DType n c) (item_defs r ++ G) \/ (n = 0 /\ In s (item_vars r)).
Proof.
  destruct r as [s ps cs|x ann ex [b|e]]; unfold check_item; intros E a Ha.
  - exists (item_defs (RTy s ps cs) ++ G). split; auto. destruct (forallb _ cs) eqn:F; [|discriminate]. cbn in Ha. apply in_flat_map in Ha as (c & Hc & Ha). apply in_flat_map in Ha as (f & Hf & Ha).
    rewrite forallb_forall in F. specialize (F _ Hc). rewrite forallb_forall in F. specialize (F _ Hf). destruct f; [|destruct Ha]. destruct Ha as [<-|[]]. auto.
  - destruct ann as [[vs t]|]; [|destruct Ha]. destruct (kind_ok _ _) eqn:K; [|discriminate]. cbn in Ha. destruct Ha as [<-|[]]. eexists. split; [exact K|]. auto.
  - destruct (type_check k G x ann e) as [[[body types] ok]| |] eqn:T; try discriminate. cbn in E. destruct ok; [|discriminate].
    unfold type_check in T. destruct (init_types _ _) as [u0 l]. destruct (instantiate _ _ _) as [u1 expected]. unfold obind in T.
    destruct (check _ _ _ _ _ _) as [[[ie ok] u]| |]; try discriminate. cbn in T. destruct (annotate _ _ _ _ _); try discriminate. cbn in T. destruct (matches_ok _ _ _ _); try discriminate. cbn in T.
    destruct (omap _ _); try discriminate. cbn in T. injection T as _ _ T. apply andb_true_iff in T as [T1 T2]. apply andb_true_iff in T1 as [_ T1].
    exists (((x, ann_def ann) :: ann_vars ann ++ expr_defs e) ++ G). split.
    + cbn in Ha. apply in_app_iff in Ha as [Ha|Ha]; [|eapply expr_kinds; eauto]. destruct ann as [[vs t]|]; [|destruct Ha]. destruct Ha as [<-|[]]. auto.
    + intros s n c H. cbn [app] in H. cbn [item_defs app]. destruct H as [H|H]; [left; left; auto|]. rewrite <- app_assoc, !in_app_iff in H. destruct H as [H|[H|H]]; [left; right; apply in_app_iff; auto| |left; right; apply in_app_iff; auto].
      right. destruct (expr_defs_in _ _ _ _ H) as [-> I]. split; auto. cbn. rewrite flat_map_app, in_app_iff. auto.
Qed.
Lemma accepts_kinds k all : forall rs G out, accepts k G rs out -> incl rs all -> (forall s n c, In (s, DType n c) G -> declared all s n) ->
  forall r a s n, In r rs -> In a (item_anns r) -> applied (snd a) s n -> declared all s n.
Proof.
  induction rs as [|r0 rs IH]; intros G [|p out] A I HG r a s n Hr Ha Hs; try contradiction. destruct A as [A1 A2].
  assert (I0 : In r0 all) by (apply I; left; auto). destruct Hr as [->|Hr].
  - destruct (check_item_kinds _ _ _ A1 _ Ha) as (D & K & HD). destruct (kind_applied _ Hs K) as [c E]. apply assoc_in in E. destruct (HD _ _ _ E) as [H|[-> H]].
    + apply in_app_iff in H as [H|H]; [eapply item_defs_in; eauto|eauto].
    + right. split; auto. eauto.
  - eapply (IH _ _ A2); eauto; [intros x Hx; apply I; right; auto|]. intros s' n' c' H. apply in_app_iff in H as [H|H]; [eapply item_defs_in; eauto|eauto].
Qed.

(** In an accepted program every type named in an annotation or a field is a type of the program, with as many arguments
    as that has parameters, or a type variable without arguments. *)
Theorem C48_kinds k rs out r a s n : accepted k rs out -> In r rs -> In a (item_anns r) -> applied (snd a) s n ->
  (exists ps cs, In (RTy s ps cs) rs /\ length ps = n) \/ (n = 0 /\ exists r', In r' rs /\ In s (item_vars r')).
Proof. intros A. eapply (@accepts_kinds k rs rs [] out); eauto; [apply incl_refl|intros ? ? ? []]. Qed.
Print Assumptions C48_kinds.
(** The list and map program is accepted, and its annotations do name a type with an argument; the same program with the
    list type used without its argument is not accepted. *)
Example C48_kinds_ex : accepted 100 tx tx_out /\ In tx_map tx /\ (exists a, In a (item_anns tx_map) /\ applied (snd a) 1 1 /\ applied (snd a) 31 0)
  /\ (forall k out, ~ accepted k [tx_list; RVal 12 (Some ([], IrFn (IrNamed 1 []) IrInt)) None (inr (RLam false 13 (RNumber 0)))] out).
Proof.
  split; [vm_compute; repeat split|]. split; [cbn; auto|]. split.
  - eexists. split; [left; reflexivity|]. split; cbn.
    + apply ap_to, ap_from. apply (ap_here 1 [IrNamed 31 []]).
    + apply ap_from, ap_from. apply (ap_here 31 []).
  - intros k out A. destruct (@C48_kinds k _ out (RVal 12 (Some ([], IrFn (IrNamed 1 []) IrInt)) None (inr (RLam false 13 (RNumber 0)))) ([], IrFn (IrNamed 1 []) IrInt) 1 0 A) as [(ps & cs & I & L)|[_ (r & I & V)]].
    + right. left. reflexivity.
    + left. reflexivity.
    + apply ap_from. apply (ap_here 1 []).
    + destruct I as [I|[I|[]]]; [injection I as <- <-|]; discriminate.
    + destruct I as [<-|[<-|[]]]; cbn in V; intuition discriminate.
Qed.
