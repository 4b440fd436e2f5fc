(** C57: the information about a name. *)
From Verif Require CompileCorrect.
From Verif Require Import TypeckProg ResolveFacts ResolveProofs ResolveLex.
From Verif Require Import HoverText NavProofs NavUnits PropsNav TokenSpec HoverSpec HoverProofs Hover NavSpec.
Set Implicit Arguments.

Definition all_defs (items : list nitem) : list rdef := flat_map (fun i => ui_defs (ni_unit i)) items.
(** On the name [n] of the definition [d] the information is its name and its type: as the source gives it, or,
    for a definition without a type, the type that was found for it. *)
Definition tells (ts : sym -> irty) (ps : list placed) (r : nav * option info) (n d : ident) : Prop :=
  exists e text, In e (all_defs (nv_items (fst r))) /\ d_name e = d /\
    snd r = Some (span n, id_text d ++ [58;32]%N ++ text) /\
    (forall w, In (d, Some w) (declared ps) -> text = w) /\
    (In (d, None) (declared ps) -> text = hover_type (hover_name (nv_items (fst r))) 0 (ts (d_sym e))).

Section Hover.
  Variable sy : nat -> sym.
  Hypothesis J : forall a b, sy a = sy b -> a = b.
  Variable ps : list placed.
  Hypothesis LO : laid_out ps.
  Variable ps1 : list placed.
  Hypothesis P1 : exists ps2, ps = ps1 ++ ps2.
  Variable pos : nat.
  Hypothesis HP : ps1 = ps \/ pos + 1 <= end_of 0 ps1.
  Let L1 := nv_items (run sy 0 ps1 c0 0).
  Lemma lookup_ok e : In e (flat_map idefs L1) -> hover_name L1 (d_sym e) = id_text (d_name e).
  Proof.
    intros He. assert (O : owns L1 (d_sym e) (d_name e)) by (exists e; auto). pose proof (@find_def_ok sy J ps LO ps1 P1 pos HP _ _ O) as F. fold L1 in F.
    unfold hover_name. destruct (find_def L1 (d_sym e)) as [e'|]; [|discriminate]. cbn in F. congruence.
  Qed.
  Lemma declared_here : map (decl (hover_name L1)) (flat_map idefs L1) = declared ps1.
  Proof. apply run_declared; [repeat split|repeat split; constructor|]. apply lookup_ok. Qed.
End Hover.
Lemma declared_app a : forall xs ys, exists zs, declared_of_items (xs ++ ys) a = declared_of_items xs a ++ zs.
Proof.
  intros xs. revert a. induction xs as [|x xs IH]; intros a ys; cbn; [eauto|]. destruct (IH (after_item x a) ys) as (zs & ->). exists zs. rewrite app_assoc. auto.
Qed.
(** Each definition is declared once. *)
Theorem C57_all_declared ps : laid_out ps -> map fst (declared ps) = binders ps.
Proof.
  intros LO. assert (J : forall a b : nat, (fun n : nat => n) a = (fun n : nat => n) b -> a = b) by auto.
  assert (P : exists ps2, ps = ps ++ ps2) by (exists []; rewrite app_nil_r; auto).
  rewrite <- (@declared_here (fun n => n) J ps LO ps P 0 (or_introl eq_refl)), map_map, <- (@binder_names (fun n => n) ps). auto.
Qed.
Print Assumptions C57_all_declared.
Lemma once (l : list declaration) d x y : NoDup (map fst l) -> In (d, x) l -> In (d, y) l -> x = y.
Proof.
  induction l as [|[k z] l IH]; [intros _ []|]. cbn. intros N Hx Hy. inversion_clear N as [|? ? N1 N2]. destruct Hx as [Hx|Hx], Hy as [Hy|Hy]; auto.
  - congruence.
  - injection Hx as -> ->. destruct N1. apply (in_map fst _ _ Hy).
  - injection Hy as -> ->. destruct N1. apply (in_map fst _ _ Hx).
Qed.

(** Whatever was compiled before: on a use or a definition, the information tells about the definition; on no
    name there is none from the names.  In a type, the types of the unit have the names of their definitions. *)
Theorem C57_hover sy ts ps offs pos : (forall a b, sy a = sy b -> a = b) -> laid_out ps ->
  let r := info_at sy ts ps pos (nav_after sy ps offs) in
  (forall n d, In (n, d) (uses ps) -> on n pos = true -> tells ts ps r n d) /\
  (forall d, In d (binders ps) -> on d pos = true -> tells ts ps r d d) /\
  ((forall n, In n (map fst (uses ps) ++ binders ps) -> on n pos = false) -> snd r = None) /\
  (forall e, In e (all_defs (nv_items (fst r))) -> hover_name (nv_items (fst r)) (d_sym e) = id_text (d_name e)).
Proof.
  intros J LO. destruct (after_reached sy ps offs) as (ps0 & R0). destruct (@up_to_reached sy ps _ ps0 (pos + 1) R0) as (ps1 & (P1 & E) & HP). cbn zeta. unfold info_at. cbn [fst snd].
  rewrite E.
  assert (ONE : forall n d s, symbol_at (nv_items (run sy 0 ps1 c0 0)) pos = Some (s, n) -> owns (nv_items (run sy 0 ps1 c0 0)) s d ->
    tells ts ps (run sy 0 ps1 c0 0, def_info ts (nv_items (run sy 0 ps1 c0 0)) pos) n d).
  { intros n d s F O. pose proof (@find_def_ok sy J ps LO ps1 P1 pos HP _ _ O) as Q. unfold tells, def_info. cbn [fst snd]. rewrite F.
    destruct (find_def (nv_items (run sy 0 ps1 c0 0)) s) as [e|] eqn:Ef; [|discriminate]. cbn in Q. injection Q as Qd.
    assert (He : In e (flat_map idefs (nv_items (run sy 0 ps1 c0 0)))).
    { unfold find_def in Ef. rewrite (first_find (fun e => d_sym e =? s) idefs) in Ef. apply find_some in Ef. tauto. }
    exists e, (kind_doc ts (nv_items (run sy 0 ps1 c0 0)) e). split; [exact He|]. split; auto. split; [rewrite Qd; reflexivity|].
    pose proof (in_map (decl (hover_name (nv_items (run sy 0 ps1 c0 0)))) _ _ He) as H. rewrite (@declared_here sy J ps LO ps1 P1 pos HP) in H.
    assert (H' : In (decl (hover_name (nv_items (run sy 0 ps1 c0 0))) e) (declared ps)).
    { destruct P1 as (ps2 & EP). unfold declared. rewrite EP, map_app. destruct (declared_app (mkAround [] [] []) (map pl_item ps1) (map pl_item ps2)) as (zs & ->). apply in_app_iff. left. exact H. }
    assert (ND : NoDup (map fst (declared ps))) by (rewrite C57_all_declared; auto; pose proof (lo_once LO) as N; apply CompileCorrect.NoDup_app_iff in N as (_ & N & _); auto).
    unfold decl in H'. rewrite Qd in H'. unfold kind_doc. split.
    - intros w Hw. pose proof (once _ _ _ _ ND H' Hw) as Q. destruct (d_kind e) as [vars t|k t|k cl]; [destruct t; cbn [value_type]; congruence|congruence|unfold stars in Q; congruence].
    - intros Hw. pose proof (once _ _ _ _ ND H' Hw) as Q. destruct (d_kind e) as [vars t|k t|k cl]; [destruct t; try discriminate; reflexivity|discriminate|discriminate]. }
  split; [|split; [|split]].
  - intros n d Hu O. destruct (@ref_found sy ps LO ps1 P1 pos HP n d Hu O) as (r & F & <- & H). apply ONE with (s := r_sym r); auto. unfold symbol_at. rewrite F. auto.
  - intros d Hd O. destruct (@def_found sy ps LO ps1 P1 pos HP d Hd O) as (e & F & <- & He). apply ONE with (s := d_sym e); [|exists e; auto].
    unfold symbol_at. rewrite (@def_no_ref sy ps LO ps1 P1 pos _ Hd O), F. auto.
  - intros H. unfold def_info, symbol_at. rewrite (@ref_none sy ps LO ps1 P1 pos), (@def_none sy ps LO ps1 P1 pos); auto.
    + intros d Hd. apply H, in_app_iff. auto.
    + intros n d Hu. apply H, in_app_iff. left. apply (in_map fst _ _ Hu).
  - apply (@lookup_ok sy J ps LO ps1 P1 pos HP).
Qed.
Print Assumptions C57_hover.

(** A name token that is no keyword of a type and not an underscore; or the text for types of other files. *)
Definition type_name (w : list N) : Prop :=
  w = [63;63;63]%N \/
  ((exists c r, w = c :: r /\ Lexer.is_alpha c = true /\ Forall (fun d => Lexer.is_word d = true) r) /\ ~ In w [int_text; bool_text; string_text; [95%N]]).
Fixpoint names_ok (nm : sym -> list N) (t : irty) : Prop :=
  match t with
  | IrNamed s args => type_name (nm s) /\ (fix go (l : list irty) : Prop := match l with [] => True | t :: r => names_ok nm t /\ go r end) args
  | IrFn a b | IrFolded a b => names_ok nm a /\ names_ok nm b
  | _ => True
  end.
Lemma alpha_range c : Lexer.is_word c = true -> (48 <= c <= 57)%N \/ (65 <= c <= 90)%N \/ (97 <= c <= 122)%N \/ c = 95%N.
Proof.
  unfold Lexer.is_word, Lexer.is_alpha, Lexer.is_digit, Lexer.chr_range. intros H. repeat apply orb_true_iff in H as [H|H]; try apply andb_true_iff in H as [A B]; try (apply N.leb_le in A, B; lia).
  apply N.eqb_eq in H. auto.
Qed.
Lemma word_head c : Lexer.is_word c = true -> head_char c /\ c <> 45%N /\ c <> 61%N.
Proof. intros H. apply alpha_range in H. unfold head_char, breaks. cbn. lia. Qed.
Lemma type_name_good w : type_name w -> good w.
Proof.
  intros [->|((c & r & -> & A & F) & N)].
  - split; [eexists _, _; split; [reflexivity|split; discriminate]|]. split; [|cbn; intros Q; repeat (destruct Q as [Q|Q]; [discriminate|]); auto].
    repeat constructor; intros Q; cbn in Q; repeat (destruct Q as [Q|Q]; [discriminate|]); auto.
  - assert (W : Lexer.is_word c = true) by (unfold Lexer.is_word; rewrite A; auto). destruct (word_head _ W) as (H1 & H2 & H3). split; [eauto|]. split.
    + constructor; auto. eapply Forall_impl; [|exact F]. intros d Hd. apply (word_head _ Hd).
    + intros Q. apply N. cbn in Q. destruct Q as [Q|[Q|[Q|[Q|[Q|[]]]]]]; try (rewrite <- Q; cbn; tauto). injection Q as <- <-. discriminate.
Qed.
Lemma names_all_good nm t : names_ok nm t -> all_good nm t.
Proof.
  induction t as [| | |s args IH|a b IHa IHb| | |a b IHa IHb] using UnifyFacts.irty_ind'; cbn; auto.
  - intros [A B]. split; [apply type_name_good; auto|]. induction IH as [|x l Hx _ IHl]; auto. destruct B as [B1 B2]. split; [apply Hx; exact B1|apply IHl; exact B2].
  - intros [A B]. auto.
  - intros [A B]. auto.
Qed.
(** The text shows the type: two types with the same text are the same, but for types of the same name. *)
Theorem C57_text_shows_the_type nm t u : names_ok nm t -> names_ok nm u -> hover_type nm 0 t = hover_type nm 0 u -> HoverText.shape nm t = HoverText.shape nm u.
Proof. intros A B. apply text_determines; apply names_all_good; auto. Qed.
Print Assumptions C57_text_shows_the_type.

From Verif Require PropsTokens.
(** In the program of C56: on the use of [C], on [T], on [x] when its type was found to be `T (T b) -> int`, and on an equals sign. *)
Example C57_example : laid_out PropsTokens.hs /\
  (let ts := fun _ => IrFn (IrNamed 0 [IrNamed 0 [IrNamed 1 []]]) IrInt in
   let ask pos := snd (info_at (fun n => n) ts PropsTokens.hs pos (nav_after (fun n => n) PropsTokens.hs [30])) in
   In (mkIdent [67]%N 11, Some [97;32;45;62;32;84;32;97]%N) (declared PropsTokens.hs) /\ In (mkIdent [120]%N 33, None) (declared PropsTokens.hs) /\
   ask 41 = Some ((41, 42), [67;58;32;97;32;45;62;32;84;32;97]%N) /\
   ask 5 = Some ((5, 6), [84;58;32;42;32;45;62;32;42]%N) /\
   ask 24 = Some ((24, 25), [102;58;32;98]%N) /\
   ask 43 = Some ((43, 44), [120;58;32;84;32;40;84;32;97;41;32;45;62;32;105;110;116]%N) /\
   ask 30 = None) /\
  (let nm := fun s => match s with 0 => [84]%N | _ => [97]%N end in names_ok nm (IrFn (IrNamed 0 [IrNamed 0 [IrNamed 1 []]]) IrInt)).
Proof.
  split; [apply PropsTokens.hs_laid_out|]. split; [vm_compute; tauto|]. cbn.
  assert (T : forall c, Lexer.is_word c = true -> Lexer.is_alpha c = true -> c <> 95%N -> type_name [c]).
  { intros c W A N. right. split; [exists c, []; auto|]. cbn. unfold int_text, bool_text, string_text. intros Q. repeat (destruct Q as [Q|Q]; [try discriminate; congruence|]). auto. }
  repeat split; apply T; try reflexivity; discriminate.
Qed.
