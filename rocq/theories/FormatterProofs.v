From Verif Require Import FormatterSpec.
Set Implicit Arguments.

Section ElemInd.
  Variable P : elem -> Prop.
  Hypothesis H1 : forall t s, P (ETok t s).
  Hypothesis H2 : forall l i f ch, Forall P ch -> P (ENode l i f ch).
  Hypothesis H3 : P ENewline.
  Hypothesis H4 : P ELarge.
  Fixpoint elem_ind' (e : elem) : P e :=
    match e with
    | ETok t s => H1 t s
    | ENode l i f ch => H2 l i f ((fix all (l : list elem) : Forall P l :=
        match l with [] => Forall_nil _ | x :: r => Forall_cons _ (elem_ind' x) (all r) end) ch)
    | ENewline => H3
    | ELarge => H4
    end.
End ElemInd.

(** Leaves of the tree, in order. *)
Inductive atom := AT (t : text) (s : sticky) | AN | AL.
Fixpoint flat (e : elem) : list atom :=
  match e with
  | ETok t s => [AT t s]
  | ENewline => [AN]
  | ELarge => [AL]
  | ENode _ _ _ ch => fold_right (fun c acc => acc ++ flat c) [] ch
  end.
Definition call_atoms (c : call) : list atom :=
  match c with
  | AddToken t => [AT t NoStick]
  | AddSticky t s => [AT t s]
  | AddNewline => [AN]
  | AddLargeNewline => [AL]
  | AddWhitespace ws => if existsb (fun c => N.eqb c nl) ws then [AN] else []
  | StartNode _ _ | FinishNode => []
  end.

Definition is_node (e : elem) : bool := match e with ENode _ _ _ _ => true | _ => false end.
Lemma flat_push c b : is_node b = true -> flat (on_current (push_child c) b) = flat b ++ flat c.
Proof.
  induction b using elem_ind'; simpl; try discriminate. intros _.
  destruct ch as [|x ch]; simpl; auto.
  inversion H as [|? ? Hx _]; subst.
  destruct x as [| l' i' [|] ch' | |]; try reflexivity.
  cbn [flat fold_right]. rewrite Hx by auto. rewrite app_assoc. auto.
Qed.
Lemma flat_finished b : flat (on_current set_finished b) = flat b.
Proof.
  induction b using elem_ind'; simpl; auto.
  destruct ch as [|x ch]; auto. inversion H as [|? ? Hx _]; subst.
  destruct x as [| l' i' [|] ch' | |]; auto.
  cbn [flat fold_right]. rewrite Hx by auto. auto.
Qed.
Lemma node_on_current f b : is_node b = true -> (forall e, is_node e = true -> is_node (f e) = true) ->
  is_node (on_current f b) = true.
Proof.
  intros Hb Hf. destruct b as [|l i fin ch| |]; try discriminate. simpl. destruct ch as [|x ch]; [apply Hf; auto|].
  destruct x as [| l' i' [|] ch' | |]; auto; apply Hf; auto.
Qed.
Lemma do_call_flat b c : is_node b = true -> is_node (do_call b c) = true /\ flat (do_call b c) = flat b ++ call_atoms c.
Proof.
  intros Hb. assert (Hp : forall x e, is_node e = true -> is_node (push_child x e) = true) by (intros x []; auto).
  destruct c; simpl.
  - split; [apply node_on_current; auto|apply flat_push; auto].
  - split; [apply node_on_current; auto|apply flat_push; auto].
  - split; [apply node_on_current; auto|apply flat_push; auto].
  - split; [apply node_on_current; auto|apply flat_push; auto].
  - destruct (existsb _ ws).
    + split; [apply node_on_current; auto|apply flat_push; auto].
    + rewrite app_nil_r; auto.
  - split; [apply node_on_current; auto|]. rewrite flat_push by auto. auto.
  - split; [apply node_on_current; auto; intros []; auto|]. rewrite flat_finished, app_nil_r. auto.
Qed.
Lemma build_flat_from cs : forall b, is_node b = true ->
  is_node (fold_left do_call cs b) = true /\ flat (fold_left do_call cs b) = flat b ++ flat_map call_atoms cs.
Proof.
  induction cs as [|c cs IH]; intros b Hb; simpl; [rewrite app_nil_r; auto|].
  destruct (do_call_flat b c Hb) as [H1 H2]. destruct (IH _ H1) as [H3 H4]. split; auto.
  rewrite H4, H2, <- app_assoc. auto.
Qed.
Lemma build_flat cs : is_node (build cs) = true /\ flat (build cs) = flat_map call_atoms cs.
Proof. apply build_flat_from. auto. Qed.
Lemma mark_flat e : flat (mark_large e) = flat e.
Proof.
  induction e using elem_ind'; simpl; auto.
  induction H; simpl; auto. rewrite H, IHForall. auto.
Qed.

(** Layout of a list of atoms, with the state before and after. *)
Definition st := (option sticky * bool)%type.
Inductive lay : st -> list atom -> text -> st -> Prop :=
| lay_nil x : lay x [] [] x
| lay_tok prev brk t s sep l o y :
    separator prev brk s sep -> lay (Some s, false) l o y ->
    lay (prev, brk) (AT t s :: l) (sep ++ t ++ o) y
| lay_nl s0 l o y : lay (Some s0, true) l o y -> lay (Some s0, false) (AN :: l) (nl :: o) y
| lay_nl_again prev brk l o y : prev = None \/ brk = true -> lay (prev, brk) l o y -> lay (prev, brk) (AN :: l) o y
| lay_large x l o y : lay x (AN :: l) o y -> lay x (AL :: l) o y
| lay_large_skip x l o y : lay x l o y -> lay x (AL :: l) o y.

Lemma lay_app x l1 o1 y l2 o2 z : lay x l1 o1 y -> lay y l2 o2 z -> lay x (l1 ++ l2) (o1 ++ o2) z.
Proof.
  induction 1; intros Hz; simpl; auto.
  - rewrite <- !app_assoc. constructor; auto.
  - constructor; auto.
  - apply lay_nl_again; auto.
  - apply lay_large. auto.
  - apply lay_large_skip; auto.
Qed.

Definition good (x : st) (r : raw) : Prop :=
  let '(prev, brk) := x in
  (prev = None -> brk = false) /\
  r_has_newline r = (match prev with None => true | Some _ => brk end) /\
  r_needs_indent r = brk /\
  r_needs_space r = (negb brk && match prev with Some s => negb (to_next s) | None => false end) /\
  exists st0 n, r_stack r = st0 ++ [n] /\ in_has_tokens n = true.

Lemma find_indent_some st0 n : in_has_tokens n = true -> exists k, find_indent (st0 ++ [n]) = Some k.
Proof. intros H; induction st0 as [|m st0 IH]; simpl; [rewrite H; eauto|]. destruct (in_has_tokens m); eauto. Qed.

Lemma raw_token_good x r t s : good x r -> exists r' sep,
  raw_token t s r = Some r' /\ separator (fst x) (snd x) s sep /\ r_out r' = r_out r ++ sep ++ t /\
  good (Some s, false) r' /\ tl (r_stack r') = tl (r_stack r).
Proof.
  destruct x as [prev brk]. intros (H0 & H1 & H2 & H3 & st0 & n & H4 & H5). cbn [fst snd].
  assert (Hst : exists m st1, r_stack r = m :: st1 /\
     exists st0' n', mkIn (in_indent m) true (in_has_newline m) :: st1 = st0' ++ [n'] /\ in_has_tokens n' = true).
  { rewrite H4. destruct st0 as [|m st0]; simpl.
    - exists n, []. split; auto. exists [], (mkIn (in_indent n) true (in_has_newline n)). auto.
    - exists m, (st0 ++ [n]). split; auto. exists (mkIn (in_indent m) true (in_has_newline m) :: st0), n. auto. }
  destruct Hst as (m & st1 & Em & st0' & n' & En & Hn').
  unfold raw_token. rewrite H3, H2. destruct brk; simpl.
  - destruct (find_indent_some st0 n H5) as [k Hk]. rewrite H4, Hk. rewrite <- H4, Em.
    eexists _, (repeat sp (4 * k)). split; [reflexivity|]. split; [constructor|]. cbn [r_out r_stack].
    split; [rewrite <- app_assoc; auto|]. split; [|auto].
    split; [discriminate|]. repeat split; auto. exists st0', n'. auto.
  - assert (E : negb (match prev with Some s0 => negb (to_next s0) | None => false end) || true = true) by (apply orb_true_r).
    rewrite E. rewrite Em.
    exists (mkRaw ((if match prev with Some s0 => negb (to_next s0) | None => false end && negb (to_prev s) then r_out r ++ [sp] else r_out r) ++ t)
              (mkIn (in_indent m) true (in_has_newline m) :: st1) false false (negb (to_next s))).
    assert (Hg : forall out, good (Some s, false) (mkRaw out (mkIn (in_indent m) true (in_has_newline m) :: st1) false false (negb (to_next s)))).
    { intros out. split; [discriminate|]. repeat split; auto. exists st0', n'. auto. }
    destruct prev as [s0|].
    + destruct (to_next s0) eqn:E0; simpl.
      * exists []. repeat split; auto. apply sep_stick; auto. exists st0', n'; auto.
      * destruct (to_prev s) eqn:E1; simpl.
        -- exists []. repeat split; auto. apply sep_stick; auto. exists st0', n'; auto.
        -- exists [sp]. repeat split; auto. apply sep_space; auto. rewrite <- app_assoc; auto. exists st0', n'; auto.
    + exists []. repeat split; auto. constructor. exists st0', n'; auto.
Qed.

Lemma raw_newline_good x r : good x r -> exists r' o y,
  raw_newline r = Some r' /\ lay x [AN] o y /\ r_out r' = r_out r ++ o /\ good y r' /\
  tl (r_stack r') = tl (r_stack r).
Proof.
  destruct x as [prev brk]. intros (H0 & H1 & H2 & H3 & st0 & n & H4 & H5). unfold raw_newline. rewrite H1.
  destruct prev as [s0|]; [destruct brk|].
  - exists r, [], (Some s0, true). rewrite app_nil_r. repeat split; auto. apply lay_nl_again; auto. constructor.
    exists st0, n; auto.
  - assert (Hst : exists m st1, r_stack r = m :: st1 /\
       exists st0' n', mkIn (in_indent m) (in_has_tokens m) true :: st1 = st0' ++ [n'] /\ in_has_tokens n' = true).
    { rewrite H4. destruct st0 as [|m st0]; simpl.
      - exists n, []. split; auto. exists [], (mkIn (in_indent n) (in_has_tokens n) true). auto.
      - exists m, (st0 ++ [n]). split; auto. exists (mkIn (in_indent m) (in_has_tokens m) true :: st0), n. auto. }
    destruct Hst as (m & st1 & Em & st0' & n' & En & Hn'). rewrite Em.
    eexists _, [nl], (Some s0, true). split; [reflexivity|]. split; [repeat constructor|]. cbn. split; auto. split; auto.
    split; [discriminate|]. repeat split; auto. exists st0', n'; auto.
  - exists r, [], (None, brk). rewrite app_nil_r. repeat split; auto. apply lay_nl_again; auto. constructor.
    exists st0, n; auto.
Qed.

Lemma fmt_good e : forall large x r, good x r -> exists r' o y,
  fmt large e r = Some r' /\ lay x (flat e) o y /\ r_out r' = r_out r ++ o /\ good y r' /\
  tl (r_stack r') = tl (r_stack r).
Proof.
  induction e using elem_ind'; intros large x r Hg.
  - destruct (@raw_token_good x r t s Hg) as (r' & sep & E & Hs & Ho & Hg' & Ht).
    destruct x as [prev brk]. exists r', (sep ++ t ++ []), (Some s, false). rewrite app_nil_r. split; [exact E|].
    split; [|auto]. simpl. rewrite <- (app_nil_r t) at 2. constructor; auto. constructor.
  - assert (Hbody : forall x r, good x r -> exists r' o y,
        fold_right (fun c k r => obind (k r) (fmt l c)) Some ch r = Some r' /\
        lay x (flat (ENode l i f ch)) o y /\ r_out r' = r_out r ++ o /\ good y r' /\ tl (r_stack r') = tl (r_stack r)).
    { clear x r Hg. induction H as [|c ch Hc _ IH]; intros x r Hg; simpl.
      - exists r, [], x. rewrite app_nil_r. split; [auto|]. split; [constructor|]. auto.
      - destruct (IH _ _ Hg) as (r1 & o1 & y1 & E1 & L1 & O1 & G1 & T1). rewrite E1. simpl.
        destruct (Hc l _ _ G1) as (r2 & o2 & y2 & E2 & L2 & O2 & G2 & T2).
        exists r2, (o1 ++ o2), y2. split; [auto|]. split; [eapply lay_app; eauto|].
        split; [rewrite O2, O1, app_assoc; auto|]. split; auto. congruence. }
    cbn [fmt]. destruct i; [|apply Hbody; auto].
    destruct x as [prev brk]. assert (Hg' := Hg). destruct Hg' as (H0 & H1 & H2 & H3 & st0 & n & H4 & H5).
    assert (Hent : exists p r1, raw_enter r = Some r1 /\ r_stack r1 = p :: r_stack r /\ r_out r1 = r_out r /\ good (prev, brk) r1).
    { unfold raw_enter. destruct (r_stack r) as [|p st1] eqn:Es; [destruct st0; discriminate|].
      eexists _, _. split; [reflexivity|]. cbn. split; [reflexivity|]. split; auto. split; auto. repeat split; auto.
      eexists (_ :: st0), n. split; auto. rewrite H4. reflexivity. }
    destruct Hent as (p & r1 & E1 & S1 & O1 & G1). rewrite E1. cbn [obind].
    destruct (Hbody _ _ G1) as (r2 & o & y & E2 & L & O2 & G2 & T2). rewrite E2. cbn [option_map].
    exists (raw_leave r2), o, y. split; auto. split; auto. cbn [raw_leave r_out r_stack]. split; [congruence|].
    rewrite T2, S1. cbn [tl]. split; auto. destruct y as [py by_]. destruct G2 as (K0 & K1 & K2 & K3 & _).
    repeat split; auto. exists st0, n. unfold raw_leave; cbn. rewrite T2, S1. auto.
  - destruct (@raw_newline_good x r Hg) as (r' & o & y & E & Hl). exists r', o, y. auto.
  - simpl. destruct large.
    + destruct (@raw_newline_good x r Hg) as (r' & o & y & E & Hl & Hr). exists r', o, y. split; auto. split; auto. apply lay_large; auto.
    + exists r, [], x. rewrite app_nil_r. split; auto. split; auto. apply lay_large_skip. constructor.
Qed.

Lemma existsb_nl ws : existsb (fun c => N.eqb c nl) ws = true <-> In nl ws.
Proof.
  split; [rewrite existsb_exists|intros H; apply existsb_exists].
  - intros (x & H & E). apply N.eqb_eq in E; subst; auto.
  - exists nl. split; auto.
Qed.

Lemma lay_laid cs : forall prev brk o y, lay (prev, brk) (flat_map call_atoms cs) o y -> laid prev brk cs o.
Proof.
  induction cs as [|c cs IH]; intros prev brk o y H; simpl in H.
  - inversion H; subst. constructor.
  - assert (Hnl : forall prev brk o, lay (prev, brk) (AN :: flat_map call_atoms cs) o y -> laid prev brk (AddNewline :: cs) o).
    { intros prev' brk' o' H'. inversion H'; subst; [apply laid_newline; eauto|apply laid_newline_again; eauto]. }
    destruct c; simpl in H.
    + inversion H; subst. apply laid_token; eauto.
    + inversion H; subst. apply laid_sticky; eauto.
    + auto.
    + inversion H; subst; [apply laid_large; eauto|apply laid_large_skip; eauto].
    + destruct (existsb (fun c => N.eqb c nl) ws) eqn:E.
      * apply laid_ws_newline; [apply existsb_nl; auto|]. auto.
      * apply laid_ws; [intros Hin; apply existsb_nl in Hin; congruence|]. eapply IH; eauto.
    + apply laid_start. eapply IH; eauto.
    + apply laid_finish. eapply IH; eauto.
Qed.

Lemma format_laid cs : exists out, format_calls cs = Some out /\ laid None false cs out.
Proof.
  unfold format_calls, finish. destruct (build_flat cs) as [Hn Hf].
  assert (Hm : flat (mark_large (build cs)) = flat_map call_atoms cs) by (rewrite mark_flat; auto).
  destruct (build cs) as [|l i f ch| |]; try discriminate. cbn [mark_large] in *.
  match goal with |- context [fmt ?l0 ?e0 raw_new] => destruct (@fmt_good e0 l0 (None, false) raw_new) as (r' & o & y & E & L & O & _) end.
  { split; auto. repeat split; auto. exists [], (mkIn 0 true true). auto. }
  rewrite E. exists (r_out r'). split; auto. rewrite O. apply lay_laid with (y := y). rewrite <- Hm. exact L.
Qed.

(** ** Consequences of [laid] *)
(** Separators inserted before tokens. *)
Inductive gap : text -> Prop :=
| gap_none : gap []
| gap_space : gap [sp]
| gap_line k : gap (nl :: repeat sp (4 * k)).

Lemma laid_gaps prev brk cs out : laid prev brk cs out -> (prev = None -> brk = false) ->
  exists gaps fin, length gaps = length (call_tokens cs) /\
    (if brk then nl :: out else out) = concat (map (fun '(g, t) => g ++ t) (combine gaps (call_tokens cs))) ++ fin /\
    Forall gap gaps /\ (fin = [] \/ fin = [nl]) /\
    (prev = None -> match gaps with g :: _ => g = [] | [] => fin = [] end).
Proof.
  assert (Htok : forall prev brk s t cs sep out,
     separator prev brk s sep -> (prev = None -> brk = false) ->
     (exists gaps fin, length gaps = length (call_tokens cs) /\
        out = concat (map (fun '(g, t) => g ++ t) (combine gaps (call_tokens cs))) ++ fin /\
        Forall gap gaps /\ (fin = [] \/ fin = [nl]) /\
        (Some s = None -> match gaps with g :: _ => g = [] | [] => fin = [] end)) ->
     exists gaps fin, length gaps = S (length (call_tokens cs)) /\
        (if brk then nl :: sep ++ t ++ out else sep ++ t ++ out) =
           concat (map (fun '(g, t) => g ++ t) (combine gaps (t :: call_tokens cs))) ++ fin /\
        Forall gap gaps /\ (fin = [] \/ fin = [nl]) /\
        (prev = None -> match gaps with g :: _ => g = [] | [] => fin = [] end)).
  { intros prev' brk' s t cs' sep out' Hsep Hp (gaps & fin & Hl & -> & Hg & Hf & _).
    exists ((if brk' then nl :: sep else sep) :: gaps), fin. cbn [length combine map concat].
    split; [lia|]. split; [destruct brk'; simpl; rewrite <- ?app_assoc; auto|]. split.
    - constructor; auto. inversion Hsep; subst; constructor.
    - split; auto. intros ->. rewrite (Hp eq_refl) in *. inversion Hsep; auto. }
  induction 1; intros Hp.
  - exists [], (if brk then [nl] else []). destruct brk; simpl; repeat split; auto. intros ->. discriminate (Hp eq_refl).
  - cbn [call_tokens flat_map app length]. eapply Htok; eauto; apply IHlaid; discriminate.
  - cbn [call_tokens flat_map app length]. eapply Htok; eauto; apply IHlaid; discriminate.
  - apply IHlaid. discriminate.
  - apply IHlaid; auto.
  - apply IHlaid; auto.
  - apply IHlaid; auto.
  - apply IHlaid; auto.
  - apply IHlaid; auto.
  - apply IHlaid; auto.
  - apply IHlaid; auto.
Qed.

Lemma format_gaps cs out : format_calls cs = Some out ->
  exists gaps fin, length gaps = length (call_tokens cs) /\
    out = concat (map (fun '(g, t) => g ++ t) (combine gaps (call_tokens cs))) ++ fin /\
    Forall gap gaps /\ (fin = [] \/ fin = [nl]) /\
    match gaps with g :: _ => g = [] | [] => fin = [] end.
Proof.
  intros H. destruct (format_laid cs) as (out' & E & L). assert (out' = out) by congruence; subst.
  destruct (laid_gaps L) as (gaps & fin & H1 & H2 & H3 & H4 & H5); auto. exists gaps, fin.
  split; [exact H1|]. split; [exact H2|]. split; [exact H3|]. split; [exact H4|]. apply H5; auto.
Qed.

(** No space at the end of a line or of the text. *)
Fixpoint no_trailing (l : text) : bool :=
  match l with
  | [] => true
  | c :: r => (if N.eqb c sp then match r with [] => false | d :: _ => negb (N.eqb d nl) end else true) && no_trailing r
  end.
Lemma no_trailing_app a b : no_trailing a = true -> no_trailing b = true -> no_trailing (a ++ b) = true.
Proof.
  induction a as [|c a IH]; simpl; auto. intros H Hb. apply andb_prop in H as [H1 H2].
  rewrite IH by auto. rewrite andb_true_r. destruct (N.eqb c sp); auto. destruct a; [discriminate|]. auto.
Qed.
Lemma no_trailing_gap g t rest : gap g -> t <> [] -> hd sp t <> nl -> no_trailing t = true -> no_trailing rest = true ->
  no_trailing (g ++ t ++ rest) = true.
Proof.
  intros Hg Hne Hh Ht Hr. assert (Htr : no_trailing (t ++ rest) = true) by (apply no_trailing_app; auto).
  assert (Hk : forall k, no_trailing (repeat sp k ++ t ++ rest) = true).
  { induction k as [|k IH]; simpl; auto. rewrite IH, andb_true_r. destruct k as [|k]; simpl; auto.
    destruct t as [|d t]; [congruence|]. simpl in *. apply negb_true_iff. apply N.eqb_neq. auto. }
  inversion Hg; subst; auto.
  - apply (Hk 1).
  - simpl app. cbn [no_trailing]. change (N.eqb nl sp) with false. simpl. apply Hk.
Qed.
Lemma no_trailing_spec l : no_trailing l = true -> (forall a b, l <> a ++ sp :: nl :: b) /\ (forall a, l <> a ++ [sp]).
Proof.
  induction l as [|c l IH]; simpl; intros H.
  - split; intros a; [intros b|]; destruct a; discriminate.
  - apply andb_prop in H as [H1 H2]. destruct (IH H2) as [I1 I2]. split.
    + intros a b E. destruct a as [|x a]; simpl in E.
      * injection E as -> ->. simpl in H1. discriminate.
      * injection E as -> E. eapply I1; eauto.
    + intros a E. destruct a as [|x a]; simpl in E.
      * injection E as -> ->. discriminate.
      * injection E as -> E. eapply I2; eauto.
Qed.
Lemma format_no_trailing cs out : format_calls cs = Some out ->
  Forall (fun t => t <> [] /\ hd sp t <> nl /\ no_trailing t = true) (call_tokens cs) ->
  (forall a b, out <> a ++ sp :: nl :: b) /\ (forall a, out <> a ++ [sp]).
Proof.
  intros H HF. apply no_trailing_spec. destruct (format_gaps _ H) as (gaps & fin & Hl & -> & Hg & Hf & _).
  clear H. revert gaps Hl Hg. induction HF as [|t ts (H1 & H2 & H3) _ IH]; intros gaps Hl Hg.
  - destruct gaps; [|discriminate]. simpl. destruct Hf; subst; auto.
  - destruct gaps as [|g gaps]; [discriminate|]. inversion Hg; subst. cbn [combine map concat].
    rewrite <- !app_assoc. apply no_trailing_gap; auto.
Qed.
