(** A type can be read back from its text: proofs for C57. *)
From Verif Require Import TypeckProg UnifyFacts Hover.
Set Implicit Arguments.

Section Text.
  Variable nm : sym -> list N.
  Definition breaks : list N := [32;40;41;123;125]%N.
  Definition head_char (c : N) : Prop := ~ In c breaks.
  Definition reserved : list (list N) := [[105;110;116]; [98;111;111;108]; [115;116;114;105;110;103]; [63]; [95]]%N.
  Definition good (w : list N) : Prop := (exists c r, w = c :: r /\ c <> 45%N /\ c <> 61%N) /\ Forall head_char w /\ ~ In w reserved.
  Fixpoint all_good (t : irty) : Prop :=
    match t with
    | IrNamed s args => good (nm s) /\ (fix go (l : list irty) : Prop := match l with [] => True | t :: r => all_good t /\ go r end) args
    | IrFn a b | IrFolded a b => all_good a /\ all_good b
    | _ => True
    end.
  Notation hv := (hover_type nm).
  Notation body := (hover_type nm 0).
  Definition args_text (l : list irty) : list N := (fix go (l : list irty) : list N := match l with [] => [] | t :: r => 32%N :: hv 2 t ++ go r end) l.

  (** The types themselves, but for the symbols. *)
  Inductive shown := ShInt | ShBool | ShString | ShNamed (n : list N) (args : list shown) | ShFn (a b : shown) | ShError | ShInfer | ShFolded (a b : shown).
  Fixpoint shape (t : irty) : shown :=
    match t with
    | IrInt => ShInt | IrBool => ShBool | IrString => ShString | IrNamed s args => ShNamed (nm s) (map shape args) | IrFn a b => ShFn (shape a) (shape b)
    | IrError => ShError | IrInfer => ShInfer | IrFolded a b => ShFolded (shape a) (shape b)
    end.
  Definition is_fn (t : irty) : bool := match t with IrFn _ _ => true | _ => false end.
  (** What may follow. *)
  Definition stop2 (r : list N) : Prop := match r with [] => True | c :: _ => In c breaks end.
  Definition stop1 (r : list N) : Prop :=
    match r with [] => True | c :: q => c = 41%N \/ c = 125%N \/ (c = 32%N /\ match q with d :: _ => d = 45%N \/ d = 61%N | [] => False end) end.
  Definition stop0 (r : list N) : Prop :=
    match r with [] => True | c :: q => c = 41%N \/ c = 125%N \/ (c = 32%N /\ match q with d :: _ => d = 61%N | [] => False end) end.
  Lemma stop01 r : stop0 r -> stop1 r.
  Proof. destruct r as [|c [|d q]]; cbn; tauto. Qed.
  Lemma stop12 r : stop1 r -> stop2 r.
  Proof. destruct r as [|c q]; cbn; auto. intros [->|[->|[-> _]]]; tauto. Qed.
  Lemma split_head : forall h h' r r', Forall head_char h -> Forall head_char h' -> stop2 r -> stop2 r' -> h ++ r = h' ++ r' -> h = h' /\ r = r'.
  Proof.
    induction h as [|c h IH]; intros [|c' h'] r r' H H' S S' E; cbn in *; auto.
    - subst r. inversion_clear H' as [|? ? Q _]. destruct (Q S).
    - subst r'. inversion_clear H as [|? ? Q _]. destruct (Q S').
    - injection E as -> E. inversion_clear H. inversion_clear H'. destruct (IH h' r r') as [-> ->]; auto.
  Qed.
  Definition word (t : irty) : option (list N) :=
    match t with
    | IrInt => Some [105;110;116]%N | IrBool => Some [98;111;111;108]%N | IrString => Some [115;116;114;105;110;103]%N | IrNamed s _ => Some (nm s)
    | IrError => Some [63]%N | IrInfer => Some [95]%N | _ => None
    end.
  Definition args_of (t : irty) : list irty := match t with IrNamed _ args => args | _ => [] end.
  Lemma body_word t w : word t = Some w -> body t = w ++ args_text (args_of t).
  Proof. destruct t; cbn; intros E; try discriminate; injection E as <-; auto; rewrite app_nil_r. auto. Qed.
  Lemma word_good t w : all_good t -> word t = Some w -> Forall head_char w /\ exists c r, w = c :: r /\ head_char c /\ c <> 45%N /\ c <> 61%N.
  Proof.
    intros G E. assert (Q : Forall head_char w /\ exists c r, w = c :: r /\ c <> 45%N /\ c <> 61%N).
    { destruct t; cbn in E; try discriminate; injection E as <-; try (split; [repeat constructor; intros Q; cbn in Q; repeat (destruct Q as [Q|Q]; [discriminate|]); auto|eexists _, _; split; [reflexivity|split; discriminate]]).
      destruct G as [(A & B & _) _]. auto. }
    destruct Q as (A & c & r & -> & B & C). split; auto. exists c, r. inversion A. auto.
  Qed.
  Lemma same_word t u w : all_good t -> all_good u -> word t = Some w -> word u = Some w -> map shape (args_of t) = map shape (args_of u) -> shape t = shape u.
  Proof.
    intros Gt Gu Et Eu A. assert (R : forall s l, all_good (IrNamed s l) -> ~ In (nm s) reserved) by (intros s l [(_ & _ & Q) _]; auto).
    destruct t; cbn in Et; try discriminate; destruct u; cbn in Eu; try discriminate; auto; cbn in A |- *; try congruence;
      injection Et as Et; injection Eu as Eu; subst w; try discriminate;
      exfalso; first [apply (R _ _ Gt); rewrite <- Eu; cbn; tauto|apply (R _ _ Gu); rewrite Eu; cbn; tauto].
  Qed.

  Definition wrapped (p : nat) (t : irty) : bool :=
    match t with IrFn _ _ => 1 <=? p | IrNamed _ args => (2 <=? p) && (0 <? length args) | _ => false end.
  Lemma hv_wrapped p t : hv p t = if wrapped p t then [40%N] ++ body t ++ [41%N] else body t.
  Proof.
    destruct t; auto.
    - cbn [hover_type wrapped]. change (2 <=? 0) with false. cbn [andb]. destruct (_ && _); rewrite ?app_nil_r, <- ?app_assoc; auto.
    - cbn [hover_type wrapped]. change (1 <=? 0) with false. destruct (1 <=? p); rewrite ?app_nil_r, <- ?app_assoc; auto.
  Qed.
  (** How a type that is not a function starts. *)
  Definition starts (c : N) : Prop := c = 123%N \/ (head_char c /\ c <> 45%N /\ c <> 61%N).
  Lemma body_starts t : all_good t -> is_fn t = false -> exists c q, body t = c :: q /\ starts c.
  Proof.
    intros G F. destruct (word t) as [w|] eqn:E.
    - destruct (@word_good t w G E) as (_ & c & r & -> & A). rewrite (body_word _ E). exists c. eexists. split; [reflexivity|right; auto].
    - destruct t; try discriminate. exists 123%N. eexists. split; [reflexivity|left; auto].
  Qed.
  Lemma starts_not c : starts c -> c <> 40%N /\ c <> 32%N /\ c <> 41%N /\ c <> 125%N /\ c <> 45%N /\ c <> 61%N.
  Proof.
    intros [->|(H & A & B)]; [repeat split; discriminate|]. repeat split; auto; intros ->; apply H; cbn; tauto.
  Qed.
  Lemma arg_starts t : all_good t -> exists c q, hv 2 t = c :: q /\ (c = 40%N \/ starts c).
  Proof.
    intros G. rewrite hv_wrapped. destruct (wrapped 2 t) eqn:W; [eexists _, _; split; [reflexivity|auto]|].
    destruct (is_fn t) eqn:F; [destruct t; discriminate|]. destruct (body_starts t) as (c & q & -> & S); auto. exists c, q. auto.
  Qed.
  Definition same_text (t u : irty) : Prop := shape t = shape u.
  Definition reads0 (t : irty) : Prop := forall u r r', all_good t -> all_good u -> stop0 r -> stop0 r' -> body t ++ r = body u ++ r' -> same_text t u /\ r = r'.
  Definition reads1 (t : irty) : Prop := forall u r r', all_good t -> all_good u -> is_fn t = false -> is_fn u = false -> stop1 r -> stop1 r' -> body t ++ r = body u ++ r' -> same_text t u /\ r = r'.
  (** Left of an arrow. *)
  Lemma reads_left t u r r' : reads0 t -> reads1 t -> all_good t -> all_good u -> stop1 r -> stop1 r' -> hv 1 t ++ r = hv 1 u ++ r' -> same_text t u /\ r = r'.
  Proof.
    intros R0 R1 Gt Gu S S' E. rewrite (hv_wrapped 1 t), (hv_wrapped 1 u) in E. assert (W : forall x, wrapped 1 x = is_fn x) by (intros []; auto). rewrite (W t), (W u) in E.
    destruct (is_fn t) eqn:Ft, (is_fn u) eqn:Fu.
    - cbn in E. rewrite <- !app_assoc in E. injection E as E. destruct (R0 u ([41%N] ++ r) ([41%N] ++ r')) as [A B]; auto; [cbn; auto|cbn; auto|]. split; auto. injection B; auto.
    - destruct (body_starts u) as (c & q & Eb & Q); auto. rewrite Eb in E. injection E as E _. destruct (starts_not Q). congruence.
    - destruct (body_starts t) as (c & q & Eb & Q); auto. rewrite Eb in E. injection E as E _. destruct (starts_not Q). congruence.
    - apply R1; auto.
  Qed.
  Lemma not_wrapped t u r r' w : all_good t -> all_good u -> wrapped 2 t = false -> word t = Some w -> wrapped 2 u = false -> stop2 r -> stop2 r' -> body t ++ r = body u ++ r' -> same_text t u /\ r = r'.
  Proof.
    intros Gt Gu Wt Et Wu S S' E. assert (N : forall x, wrapped 2 x = false -> args_of x = []) by (intros []; cbn; auto; destruct args; auto; discriminate).
    destruct (word u) as [v|] eqn:Eu.
    - rewrite (body_word _ Et), (body_word _ Eu), (N _ Wt), (N _ Wu) in E. cbn in E. rewrite !app_nil_r in E.
      destruct (@split_head w v r r') as [-> ->]; auto; [apply (word_good _ Gt Et)|apply (word_good _ Gu Eu)|]. split; auto. apply (@same_word t u v); auto. rewrite (N _ Wt), (N _ Wu). auto.
    - destruct u; try discriminate. destruct (word_good _ Gt Et) as (_ & c & q & -> & H & _). rewrite (body_word _ Et) in E. injection E as E _. destruct H. subst c. cbn. tauto.
  Qed.
  (** An argument. *)
  Lemma reads_arg t u r r' : reads0 t -> (forall a b, t = IrFolded a b -> reads0 a /\ reads0 b) -> all_good t -> all_good u -> stop2 r -> stop2 r' -> hv 2 t ++ r = hv 2 u ++ r' -> same_text t u /\ r = r'.
  Proof.
    intros R0 RF Gt Gu S S' E. rewrite (hv_wrapped 2 t), (hv_wrapped 2 u) in E. assert (F : forall x, wrapped 2 x = false -> is_fn x = false) by (intros []; auto).
    destruct (wrapped 2 t) eqn:Wt, (wrapped 2 u) eqn:Wu.
    - cbn in E. rewrite <- !app_assoc in E. injection E as E. destruct (R0 u ([41%N] ++ r) ([41%N] ++ r')) as [A B]; auto; [cbn; auto|cbn; auto|]. split; auto. injection B; auto.
    - destruct (body_starts u) as (c & q & Eb & Q); auto. rewrite Eb in E. injection E as E _. destruct (starts_not Q). congruence.
    - destruct (body_starts t) as (c & q & Eb & Q); auto. rewrite Eb in E. injection E as E _. destruct (starts_not Q). congruence.
    - destruct (word t) as [w|] eqn:Et; [eapply not_wrapped; eauto|]. destruct (word u) as [w|] eqn:Eu.
      + symmetry in E. destruct (@not_wrapped u t r' r w) as [A B]; auto. split; auto. symmetry. auto.
      + destruct t; try discriminate. destruct u; try discriminate. destruct (RF _ _ eq_refl) as [Ra Rb]. destruct Gt, Gu. cbn in E. rewrite <- !app_assoc in E. injection E as E.
        change (32%N :: ?x ++ ?y) with ([32%N] ++ x ++ y) in E. destruct (Ra u1 ([32;61;62;32]%N ++ body t2 ++ [125%N] ++ r) ([32;61;62;32]%N ++ body u2 ++ [125%N] ++ r')) as [A B]; auto; try (cbn; tauto).
        { rewrite <- !app_assoc in E. exact E. }
        injection B as B. destruct (Rb u2 ([125%N] ++ r) ([125%N] ++ r')) as [A2 B2]; auto; try (cbn; tauto). unfold same_text in *. cbn. rewrite A, A2. injection B2; auto.
  Qed.

  Lemma reads_args : forall l, Forall (fun t => reads0 t /\ (forall a b, t = IrFolded a b -> reads0 a /\ reads0 b)) l -> Forall all_good l ->
    forall l' r r', Forall all_good l' -> stop1 r -> stop1 r' -> args_text l ++ r = args_text l' ++ r' -> map shape l = map shape l' /\ r = r'.
  Proof.
    assert (NIL : forall u l' r r', all_good u -> stop1 r -> r = args_text (u :: l') ++ r' -> False).
    { intros u l' r r' Gu S ->. destruct (arg_starts u Gu) as (c & q & E & Q). cbn [args_text] in S. rewrite E in S. cbn in S. destruct S as [S|[S|[_ S]]]; try discriminate.
      destruct Q as [->|Q]; [destruct S; discriminate|]. destruct (starts_not Q) as (_ & _ & _ & _ & A & B). destruct S; auto. }
    assert (ST : forall l r, stop1 r -> stop2 (args_text l ++ r)) by (intros [|x l] r S; [apply stop12; exact S|cbn; tauto]).
    induction 1 as [|t l [R0 RF] _ IH]; intros G l' r r' G' S S' E.
    - destruct l' as [|u l']; auto. exfalso. inversion_clear G' as [|? ? Gu _]. exact (NIL _ _ _ _ Gu S E).
    - inversion_clear G as [|? ? Gt Gl]. destruct l' as [|u l']; [exfalso; exact (NIL _ _ _ _ Gt S' (eq_sym E))|]. inversion_clear G' as [|? ? Gu Gl'].
      cbn [args_text] in E. injection E as E. rewrite <- !app_assoc in E. destruct (@reads_arg t u (args_text l ++ r) (args_text l' ++ r')) as [A B]; auto.
      destruct (IH Gl l' r r') as [C ->]; auto. cbn. unfold same_text in A. rewrite A, C. auto.
  Qed.
  Lemma good_args t : all_good t -> Forall all_good (args_of t).
  Proof. destruct t; try constructor. cbn. intros [_ H]. induction args as [|x l IH]; constructor; tauto. Qed.
  Lemma reads1_word t w : word t = Some w -> Forall (fun t => reads0 t /\ (forall a b, t = IrFolded a b -> reads0 a /\ reads0 b)) (args_of t) -> reads1 t.
  Proof.
    intros Et F u r r' Gt Gu _ Fu S S' E. assert (ST : forall l r, stop1 r -> stop2 (args_text l ++ r)) by (intros [|x l] q Q; [apply stop12; exact Q|cbn; tauto]).
    destruct (word u) as [v|] eqn:Eu.
    - rewrite (body_word _ Et), (body_word _ Eu), <- !app_assoc in E. destruct (@split_head w v (args_text (args_of t) ++ r) (args_text (args_of u) ++ r')) as [-> E2]; auto; [apply (word_good _ Gt Et)|apply (word_good _ Gu Eu)|].
      destruct (@reads_args (args_of t) F (good_args _ Gt) (args_of u) r r' (good_args _ Gu)) as [A ->]; auto. split; auto. apply (@same_word t u v); auto.
    - destruct u; try discriminate. destruct (word_good _ Gt Et) as (_ & c & q & -> & H & _). rewrite (body_word _ Et) in E. injection E as E _. destruct H. subst c. cbn. tauto.
  Qed.
  Lemma reads1_folded a b : reads0 a -> reads0 b -> reads1 (IrFolded a b).
  Proof.
    intros Ra Rb u r r' Gt Gu _ Fu S S' E. destruct (word u) as [w|] eqn:Eu.
    - destruct (word_good _ Gu Eu) as (_ & c & q & -> & H & _). rewrite (body_word _ Eu) in E. injection E as E _. destruct H. subst c. cbn. tauto.
    - destruct u; try discriminate. destruct Gt, Gu. cbn [hover_type] in E. injection E as E.
      destruct (Ra u1 ([32;61;62;32]%N ++ body b ++ [125%N] ++ r) ([32;61;62;32]%N ++ body u2 ++ [125%N] ++ r')) as [A B]; auto; try (cbn; tauto).
      { revert E. cbn [app]. rewrite <- !app_assoc. cbn [app]. rewrite <- !app_assoc. auto. }
      cbn [app] in B. injection B as B. destruct (Rb u2 ([125%N] ++ r) ([125%N] ++ r')) as [A2 B2]; auto; try (cbn; tauto). unfold same_text in *. cbn. rewrite A, A2. injection B2; auto.
  Qed.
  Lemma reads0_other t : is_fn t = false -> reads1 t -> reads0 t.
  Proof.
    intros Ft R1 u r r' Gt Gu S S' E. destruct (is_fn u) eqn:Fu; [|apply R1; auto; apply stop01; auto]. exfalso. destruct u as [| | | |x y| | |]; try discriminate. destruct Gu as [Gx Gy].
    change (body (IrFn x y)) with ([] ++ hv 1 x ++ [32;45;62;32]%N ++ body y ++ []) in E. rewrite (hv_wrapped 1 x) in E. assert (W : wrapped 1 x = is_fn x) by (destruct x; auto). rewrite W in E.
    destruct (is_fn x) eqn:Fx.
    - destruct (body_starts t) as (c & q & Eb & Q); auto. rewrite Eb in E. injection E as E _. destruct (starts_not Q). congruence.
    - cbn [app] in E. rewrite app_nil_r, <- app_assoc in E. destruct (R1 x r ([32;45;62;32]%N ++ body y ++ r') Gt Gx Ft Fx (stop01 _ S)) as [_ B]; [cbn; tauto|exact E|].
      rewrite B in S. cbn in S. destruct S as [S|[S|[_ S]]]; discriminate.
  Qed.
  Lemma reads0_fn a b : reads0 a -> reads1 a -> reads0 b -> reads0 (IrFn a b).
  Proof.
    intros R0 R1 Rb u r r' [Ga Gb] Gu S S' E. change (body (IrFn a b)) with ([] ++ hv 1 a ++ [32;45;62;32]%N ++ body b ++ []) in E. cbn [app] in E. rewrite app_nil_r, <- app_assoc in E.
    destruct (is_fn u) eqn:Fu.
    - destruct u as [| | | |x y| | |]; try discriminate. destruct Gu as [Gx Gy]. change (body (IrFn x y)) with ([] ++ hv 1 x ++ [32;45;62;32]%N ++ body y ++ []) in E. cbn [app] in E. rewrite app_nil_r, <- app_assoc in E.
      destruct (@reads_left a x ([32;45;62;32]%N ++ body b ++ r) ([32;45;62;32]%N ++ body y ++ r') R0 R1 Ga Gx) as [A B]; [cbn; tauto|cbn; tauto|exact E|].
      cbn [app] in B. injection B as B. destruct (Rb y r r' Gb Gy S S' B) as [A2 ->]. unfold same_text in *. cbn. rewrite A, A2. auto.
    - exfalso. rewrite (hv_wrapped 1 a) in E. assert (W : wrapped 1 a = is_fn a) by (destruct a; auto). rewrite W in E. destruct (is_fn a) eqn:Fa.
      + destruct (body_starts u) as (c & q & Eb & Q); auto. rewrite Eb in E. injection E as E _. destruct (starts_not Q). congruence.
      + destruct (R1 u ([32;45;62;32]%N ++ body b ++ r) r' Ga Gu Fa Fu) as [_ B]; [cbn; tauto|apply stop01; auto|exact E|].
        rewrite <- B in S'. cbn in S'. destruct S' as [S'|[S'|[_ S']]]; discriminate.
  Qed.
  Definition reads (t : irty) : Prop := reads0 t /\ reads1 t /\ (forall a b, t = IrFolded a b -> reads0 a /\ reads0 b).
  Lemma reads_word t w : word t = Some w -> Forall reads (args_of t) -> reads t.
  Proof.
    intros E F. assert (R1 : reads1 t). { eapply reads1_word; eauto. eapply Forall_impl; [|exact F]. intros x (A & _ & B). auto. }
    split; [apply reads0_other; auto; destruct t; auto; discriminate|]. split; auto. intros a b ->. discriminate.
  Qed.
  Lemma reads_all t : reads t.
  Proof.
    induction t as [| | |s args IH|a b IHa IHb| | |a b IHa IHb] using irty_ind'; try (eapply reads_word; [reflexivity|]; cbn; auto; fail).
    - destruct IHa as (A0 & A1 & _), IHb as (B0 & _). split; [apply reads0_fn; auto|]. split; [|discriminate]. intros u r r' _ _ F. discriminate.
    - destruct IHa as (A0 & _), IHb as (B0 & _). assert (R1 : reads1 (IrFolded a b)) by (apply reads1_folded; auto). split; [apply reads0_other; auto|]. split; auto.
      intros x y E. injection E as <- <-. auto.
  Qed.
  Theorem text_determines t u : all_good t -> all_good u -> body t = body u -> shape t = shape u.
  Proof.
    intros Gt Gu E. destruct (reads_all t) as (R & _). destruct (R u [] [] Gt Gu I I) as [A _]; [|exact A]. rewrite !app_nil_r. exact E.
  Qed.
End Text.
