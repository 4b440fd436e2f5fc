(** C52: name resolution follows lexical scoping, and what it hands to the later phases is what they rely on. *)
From Coq Require Import Permutation.
From Verif Require Import VerifyState.
From Verif Require Import TypeckSpec TypeckProg Resolve ResolveFacts ResolveProofs ResolveSpec ResolveLex ResolveComplete Units UnitsProofs PropsTypeck PropsUnits.
Set Implicit Arguments.

Definition no_errors (us : list unit_item) : Prop := Forall (fun u => ui_ok u = true) us.

(** If no error is reported, every name stands for the nearest definition of that name around it. *)
Theorem C52_lexical sy xs : no_errors (resolve_unit sy xs) -> program_as [] [] [] xs (map ui_tree (resolve_unit sy xs)).
Proof. intros H. exact (@program_lex sy xs 0 (mkScope [] [] []) H). Qed.
Print Assumptions C52_lexical.

(** And an error is reported only if there is one: if there is any way to give every name its meaning, none is. *)
Theorem C52_complete sy xs : no_errors (resolve_unit sy xs) <-> exists rs, program_as [] [] [] xs rs.
Proof.
  split; [intros H; eexists; exact (@C52_lexical sy xs H)|]. intros [rs H]. eapply program_complete; [|exact H]. split; [|split]; intros x [].
Qed.
Print Assumptions C52_complete.

(** For every program, with errors or without: what comes out is well scoped, with a symbol of its own for every
    definition.  This is what C48 to C51 assume of the items. *)
Theorem C52_resolved sy xs : (forall a b, sy a = sy b -> a = b) ->
  resolved_items (map ui_tree (resolve_unit sy xs)) /\ Forall written (map ui_tree (resolve_unit sy xs)).
Proof.
  intros J. destruct (@resolve_items_ok sy xs 0 (mkScope [] [] []) [] [] []) as (A & (m & is & N & _ & E) & C); [split; intros y []|intros y []|].
  cbn zeta in *. fold (resolve_unit sy xs) in *. set (rs := map ui_tree (resolve_unit sy xs)) in *. split.
  - constructor.
    + rewrite E. apply FinFun.Injective_map_NoDup; auto.
    + exact A.
    + eapply Forall_impl; [|exact C]. intros [s ps cs|x [[vs t]|] ex b] H.
      * intros c fs t Hc Ht. specialize (H c fs t Hc Ht). rewrite app_nil_r in H. auto.
      * destruct H as [H _]. rewrite app_nil_r in H. auto.
      * exact I.
  - eapply Forall_impl; [|exact C]. intros [s ps cs|x [[vs t]|] ex b] H; cbn; auto. apply H.
Qed.
Print Assumptions C52_resolved.

(** The definitions recorded for an item without errors are those of its tree. *)
Lemma items_recorded sy : forall xs n c, Forall (fun u => ui_ok u = true -> Permutation (map kd (Resolve.ui_defs u)) (item_defs (ui_tree u) ++ inner_defs (ui_tree u))) (resolve_items sy n c xs).
Proof.
  induction xs as [|x xs IH]; intros n c; cbn [resolve_items]; [constructor|].
  destruct (resolve_item sy x c _) as [r s'] eqn:E. constructor; auto. cbn. intros O. apply resolve_item_ok in E as (ds & S0 & _).
  pose proof (sp_defs S0) as D. cbn in D. rewrite D. apply (sp_ok S0 O).
Qed.
Theorem C52_recorded sy xs u : In u (resolve_unit sy xs) -> ui_ok u = true ->
  Permutation (map kd (Resolve.ui_defs u)) (item_defs (ui_tree u) ++ inner_defs (ui_tree u)).
Proof. intros H. pose proof (@items_recorded sy xs 0 (mkScope [] [] [])) as F. rewrite Forall_forall in F. exact (F _ H). Qed.
Print Assumptions C52_recorded.

(** A name means one thing: two trees that agree with the same program have the same symbol for the same name. *)
Lemma nearest_unique env n a b : nearest env n a -> nearest env n b -> a = b.
Proof.
  intros (i & o & E & N) (i' & o' & E' & N'). rewrite E in E'. clear E. revert i' E' N'. induction i as [|[t x] i IH]; intros [|[t' x'] i'] E N'; cbn in *.
  - congruence.
  - exfalso. apply N'. injection E. auto.
  - exfalso. apply N. injection E. auto.
  - injection E as <- <- E. eapply IH; eauto.
Qed.

(** ** From names to running *)
(** Every definition has an annotation and a body, constructors have at most nine fields. *)
Definition annotated (x : xitem) : Prop :=
  match x with
  | XType _ _ _ _ cs => forall n fs, In (n, fs) cs -> length fs <= max_fields
  | XValue _ _ (Some _) (inr _) => True
  | XValue _ _ _ _ => False
  end.
(** Local definitions have no annotation. *)
Fixpoint bare_locals (e : xexpr) : bool :=
  match e with
  | XName _ | XBoolean _ | XNumber _ | XStr _ | XHole _ => true
  | XApply a b | XBinary a _ b | XPipe a b => bare_locals a && bare_locals b
  | XLet _ ann v e => match ann with None => true | Some _ => false end && bare_locals v && bare_locals e
  | XMatch d cs => bare_locals d && forallb (fun c => bare_locals (snd c)) cs
  | XIf a b c => bare_locals a && bare_locals b && bare_locals c
  | XLam _ _ b => bare_locals b
  | XParens e => bare_locals e
  end.
Definition item_bare (x : xitem) : Prop := match x with XValue _ _ _ (inr e) => bare_locals e = true | _ => True end.

Lemma annotated_ordinary : forall xs V T C rs, program_as V T C xs rs -> Forall annotated xs -> Forall ordinary rs.
Proof.
  induction xs as [|x xs IH]; intros V T C [|r rs] P F; try contradiction; constructor; inversion_clear F as [|? ? F1 F2]; destruct P as [P1 P2]; [|eapply IH; eauto].
  destruct x as [n ex ec ps cs|n ex [t|] [b|e]]; try contradiction; destruct r as [s ps' cs'|s ann' ex' b']; try contradiction; cbn in *.
  - destruct P1 as (_ & _ & P1). intros c fs Hc. clear - P1 F1 Hc. induction P1 as [|[n f] [c' f'] cs cs' H _ IH]; [destruct Hc|]. destruct Hc as [Hc|Hc].
    + injection Hc as -> ->. specialize (F1 n f (or_introl eq_refl)). cbn in H. replace (length fs) with (length f); auto. clear - H. induction H; cbn; auto.
    + apply IH; auto. intros m g Hm. apply (F1 m g). right. auto.
  - destruct P1 as (_ & inside & A & B). destruct ann' as [[vs t']|]; [|contradiction]. destruct b'; [contradiction|]. exact I.
Qed.
Lemma bare_keeps defs types : forall e V T C r L, expr_as V T C e r -> bare_locals e = true -> keeps defs types L r.
Proof.
  induction e using xexpr_ind'; intros V T C r L A B; cbn [expr_as] in A; destruct r; try contradiction; cbn [keeps bare_locals] in *; try exact Logic.I.
  all: repeat match goal with H : _ && _ = true |- _ => apply andb_true_iff in H as [? ?] | H : _ /\ _ |- _ => destruct H end; eauto.
  - destruct a; [discriminate|]. destruct A as (inside & A1 & A2 & A3). destruct ann; [contradiction|]. repeat split; eauto.
  - split; [eauto|]. rewrite forallb_forall in H1. clear H2. rename H1 into H2. rename H3 into H1. revert cases H1 H2. induction H as [|[[n xs] b] cs Hb _ IH]; intros [|[[s vs] b'] cs'] H1 H2; try contradiction; auto.
    destruct H1 as [(_ & _ & H1) H3]. split; [eapply Hb; eauto; apply (H2 _ (or_introl eq_refl))|]. apply IH; auto. intros q Hq. apply H2. right. auto.
  - repeat split; eauto.
Qed.
Lemma bare_items k : forall xs V T C rs G out, program_as V T C xs rs -> Forall item_bare xs -> accepts k G rs out -> Forall2 item_keeps rs out.
Proof.
  induction xs as [|x xs IH]; intros V T C [|r rs] G [|p out] P F A; try contradiction; constructor; inversion_clear F as [|? ? F1 F2]; destruct P as [P1 P2]; destruct A as [A1 A2]; [|eapply IH; eauto].
  destruct x as [n ex ec ps cs|n ex ann [b|e]]; destruct r as [s ps' cs'|s ann' ex' [b'|e']]; try contradiction; cbn in *; auto; destruct P1 as (_ & inside & _ & B); try contradiction.
  eapply bare_keeps; eauto.
Qed.
(** A program for which neither name resolution nor the type checker reports an error, whatever was asked in
    between, does not go wrong. *)
Theorem C52_no_errors_no_panics sy xs k out ns root : (forall a b, sy a = sy b -> a = b) ->
  Forall annotated xs -> Forall item_bare xs ->
  no_errors (resolve_unit sy xs) -> compiled_after k (map ui_tree (resolve_unit sy xs)) ns = Done (map Some out) ->
  flat root = map fst out -> forall o fuel, run_source o fuel root <> Panic.
Proof.
  intros J A B O E F o fuel. pose proof (@C52_lexical _ _ O) as P. destruct (@C52_resolved sy xs J) as [R W].
  eapply C51_no_errors_no_panics; eauto; [eapply annotated_ordinary; eauto|].
  eapply bare_items; eauto. eapply queries_accept; eauto.
Qed.
Print Assumptions C52_no_errors_no_panics.

(** A program that meets the hypotheses: lists, with names that hide others.
    [type list a = nil | cons a rec;
     let sum : list int -> int = fold \x -> match x with nil -> 0; cons x y -> x + y end;
     let map : (a -> b) -> list a -> list b = \f -> fold \x -> match x with nil -> nil; cons y x -> cons (f y) x end;
     let main : int = let map = map (\x -> x * 3); sum (map (cons 1 (cons 4 nil)))] *)
Section Example.
  Local Notation i t n := (mkIdent t n).
  Let a := [97%N]. Let b := [98%N]. Let f := [102%N]. Let x := [120%N]. Let y := [121%N].
  Let list' := [108;105;115;116]%N. Let nil' := [110;105;108]%N. Let cons' := [99;111;110;115]%N.
  Let sum := [115;117;109]%N. Let map' := [109;97;112]%N. Let main := [109;97;105;110]%N.
  Definition xp : list xitem := [
    XType (i list' 5) true false [i a 10] [(i nil' 14, []); (i cons' 20, [Some (XNamed (i a 25) []); None])];
    XValue (i sum 36) false (Some (XFn (XNamed (i list' 42) [XInt]) XInt))
      (inr (XLam true (i x 66) (XMatch (XName (i x 77)) [(i nil' 84, [], XNumber 0); (i cons' 94, [i x 99; i y 101], XBinary (XName (i x 106)) Ir.Add (XName (i y 110)))])));
    XValue (i map' 120) false (Some (XFn (XParen (XFn (XNamed (i a 130) []) (XNamed (i b 140) []))) (XFn (XNamed (i list' 150) [XNamed (i a 160) []]) (XNamed (i list' 170) [XNamed (i b 180) []]))))
      (inr (XLam false (i f 190) (XLam true (i x 200) (XMatch (XName (i x 210)) [(i nil' 220, [], XName (i nil' 230));
         (i cons' 240, [i y 250; i x 260], XApply (XApply (XName (i cons' 270)) (XParens (XApply (XName (i f 280)) (XName (i y 290))))) (XName (i x 300)))]))));
    XValue (i main 310) true (Some XInt)
      (inr (XLet (i map' 320) None (XApply (XName (i map' 330)) (XLam false (i x 340) (XBinary (XName (i x 350)) Multiply (XNumber 3))))
        (XApply (XName (i sum 360)) (XApply (XName (i map' 370)) (XApply (XApply (XName (i cons' 380)) (XNumber 1)) (XApply (XApply (XName (i cons' 390)) (XNumber 4)) (XName (i nil' 400))))))))].
End Example.
Definition xp_sy (n : nat) : sym := 100 + 3 * n.
Definition xp_rs := map ui_tree (resolve_unit xp_sy xp).
Definition xp_out := match compiled_after 100 xp_rs [2] with Done l => flat_map (fun o => match o with Some p => [p] | None => [] end) l | _ => [] end.
Example C52_example : (forall a b, xp_sy a = xp_sy b -> a = b) /\ Forall annotated xp /\ Forall item_bare xp /\ no_errors (resolve_unit xp_sy xp) /\
  compiled_after 100 xp_rs [2] = Done (map Some xp_out) /\ flat (map fst xp_out) = map fst xp_out /\ length xp_out = 4 /\
  match nth_error xp_rs 3 with
  | Some (RVal m _ _ _) => exists en, run_source FnFirst 100 (map fst xp_out) = Ok en /\ lookup m en = Some (WInt 15)
  | _ => False
  end.
Proof.
  split; [unfold xp_sy; intros; lia|]. split.
  { unfold xp. repeat apply Forall_cons; try apply Forall_nil; cbn; auto. intros n fs [E|[E|[]]]; injection E as <- <-; cbn; unfold max_fields; lia. }
  split; [unfold xp; repeat apply Forall_cons; try apply Forall_nil; cbn; auto|].
  split; [apply Forall_forall, forallb_forall; vm_compute; reflexivity|]. split; [vm_compute; reflexivity|]. split; [vm_compute; reflexivity|]. split; [vm_compute; reflexivity|].
  match goal with |- match ?o with _ => _ end => let v := eval vm_compute in o in replace o with v by (vm_compute; reflexivity) end.
  eexists. split; vm_compute; reflexivity.
Qed.
(** A name that is not defined yet is an error, and so are two constructors of the same name. *)
Example C52_unbound : ~ no_errors (resolve_unit xp_sy [XValue (mkIdent [97%N] 4) false None (inr (XName (mkIdent [97%N] 8)))]).
Proof. intros H. inversion H as [|? ? E _]. discriminate. Qed.
Example C52_duplicate : ~ no_errors (resolve_unit xp_sy [XType (mkIdent [97%N] 5) false false [] [(mkIdent [98%N] 9, []); (mkIdent [98%N] 13, [])]]).
Proof. intros H. inversion H as [|? ? E _]. discriminate. Qed.
