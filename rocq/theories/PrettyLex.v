(** The printed text of a core program can be split into tokens again, whatever the layout. *)
From Verif Require Import Formatter FormatterSpec FormatterProofs Eval Checks ArithProofs PrintProofs PrintDecode Pretty.
From Coq Require Ascii String.
Import String.StringSyntax.
Local Open Scope string_scope.

(** ** A splitter *)
Definition is_space (c : N) : bool := (N.eqb c sp || N.eqb c nl)%bool.
Definition is_punct (c : N) : bool := existsb (N.eqb c) (tx "()[],;@\").
Definition is_quote (c : N) : bool := N.eqb c 34.
Definition is_wordc (c : N) : bool := negb (is_space c || is_punct c || is_quote c).
Inductive mode := Word (cur : text) | Quoted (cur : text).
Definition fl (cur : text) : list text := match cur with [] => [] | _ => [cur] end.
(** Tokens found so far, newest first. *)
Definition scan (st : list text * mode) (c : N) : list text * mode :=
  let (ls, m) := st in
  match m with
  | Word cur =>
    if is_space c then (fl cur ++ ls, Word [])
    else if is_punct c then ([c] :: fl cur ++ ls, Word [])
    else if is_quote c then (fl cur ++ ls, Quoted [c])
    else (ls, Word (cur ++ [c]))
  | Quoted cur =>
    if is_quote c then ((cur ++ [c]) :: ls, Word []) else (ls, Quoted (cur ++ [c]))
  end.
Definition scans (t : text) (st : list text * mode) := fold_left scan t st.
Definition content (st : list text * mode) : list text :=
  match st with (ls, Word cur) => fl cur ++ ls | (ls, Quoted cur) => cur :: ls end.
Definition tokens_of (t : text) : list text := rev (content (scans t ([], Word []))).

Lemma scans_app a b st : scans (a ++ b) st = scans b (scans a st).
Proof. apply fold_left_app. Qed.

(** A state in which a new token can be placed: the pending word is over, or a space will follow it. *)
Definition ready (st : list text * mode) (prev : option sticky) (brk : bool) : Prop :=
  exists ls cur, st = (ls, Word cur) /\ (brk = true -> cur = []) /\
    (cur = [] \/ exists s0, prev = Some s0 /\ to_next s0 = false).

Definition Good (cs : list call) (L : list text) : Prop :=
  forall prev brk rest out st, laid prev brk (cs ++ rest) out -> ready st prev brk ->
    exists o1 o2 prev' brk', out = o1 ++ o2 /\ laid prev' brk' rest o2 /\ ready (scans o1 st) prev' brk' /\
      content (scans o1 st) = rev L ++ content st.

Lemma Good_nil : Good [] [].
Proof. intros prev brk rest out st H R. exists [], out, prev, brk. auto. Qed.
Lemma Good_app a b La Lb : Good a La -> Good b Lb -> Good (a ++ b) (La ++ Lb).
Proof.
  intros Ha Hb prev brk rest out st H R. rewrite <- app_assoc in H.
  destruct (Ha _ _ _ _ _ H R) as (o1 & o2 & p1 & b1 & -> & H1 & R1 & C1).
  destruct (Hb _ _ _ _ _ H1 R1) as (o3 & o4 & p2 & b2 & -> & H2 & R2 & C2).
  exists (o1 ++ o3), o4, p2, b2. rewrite app_assoc, scans_app. repeat split; auto.
  rewrite C2, C1, rev_app_distr, app_assoc. reflexivity.
Qed.
Lemma Good_cons c b La Lb : Good [c] La -> Good b Lb -> Good (c :: b) (La ++ Lb).
Proof. apply (@Good_app [c] b). Qed.
Lemma Good_quiet c b L : Good [c] [] -> Good b L -> Good (c :: b) L.
Proof. intros A B. exact (@Good_cons _ _ _ _ A B). Qed.

Lemma Good_start l i : Good [StartNode l i] [].
Proof. intros prev brk rest out st H R. inversion H; subst. exists [], out, prev, brk. auto. Qed.
Lemma Good_finish : Good [FinishNode] [].
Proof. intros prev brk rest out st H R. inversion H; subst. exists [], out, prev, brk. auto. Qed.
Lemma laid_nl_inv prev brk rest out st : laid prev brk (AddNewline :: rest) out -> ready st prev brk ->
    exists o1 o2 prev' brk', out = o1 ++ o2 /\ laid prev' brk' rest o2 /\ ready (scans o1 st) prev' brk' /\
      content (scans o1 st) = content st.
Proof.
  intros H (ls & cur & -> & A & B). inversion H; subst.
  - exists [nl], out0, (Some s0), true. repeat split; auto. exists (fl cur ++ ls), []. repeat split; auto.
  - exists [], out, prev, brk. repeat split; auto. exists ls, cur. auto.
Qed.
Lemma Good_newline : Good [AddNewline] [].
Proof. intros prev brk rest out st H R. eapply laid_nl_inv; eauto. Qed.
Lemma Good_large : Good [AddLargeNewline] [].
Proof.
  intros prev brk rest out st H R. inversion H; subst; [eapply laid_nl_inv; eauto|].
  exists [], out, prev, brk. auto.
Qed.

(** Spaces. *)
Lemma scan_spaces k ls cur : k <> 0 -> scans (repeat sp k) (ls, Word cur) = (fl cur ++ ls, Word []).
Proof.
  destruct k as [|k]; [lia|]. intros _. cbn [repeat scans fold_left]. change (scan (ls, Word cur) sp) with (fl cur ++ ls, Word []).
  generalize (fl cur ++ ls). induction k; intros l; [reflexivity|]. cbn [repeat fold_left]. apply IHk.
Qed.
(** After the separator the pending word is over, or the token is stuck to it. *)
Lemma sep_flush prev brk s sep ls cur : separator prev brk s sep -> (brk = true -> cur = []) ->
  (cur = [] \/ exists s0, prev = Some s0 /\ to_next s0 = false) ->
  scans sep (ls, Word cur) = (fl cur ++ ls, Word []) \/ (sep = [] /\ to_prev s = true).
Proof.
  intros H A B. inversion H; subst.
  - rewrite (A eq_refl). left. destruct k; [reflexivity|]. apply scan_spaces. lia.
  - destruct B as [->|(s0 & [=] & _)]. left. reflexivity.
  - destruct H0 as [H0|H0]; auto. destruct B as [->|(s1 & [= <-] & B)]; [left; reflexivity|congruence].
  - left. reflexivity.
Qed.

(** A token text that splits into [L] wherever it is put. *)
Definition splits (t : text) (L : list text) (closed : bool) : Prop :=
  forall ls, exists ls' cur', scans t (ls, Word []) = (ls', Word cur') /\ fl cur' ++ ls' = rev L ++ ls /\
    (closed = true -> cur' = []).
Definition first_punct (t : text) : Prop := match t with c :: _ => is_punct c = true | [] => False end.
Lemma punct_not_space c : is_punct c = true -> is_space c = false.
Proof.
  intros H. destruct (is_space c) eqn:E; auto. exfalso. apply orb_true_iff in E as [E|E]; apply N.eqb_eq in E; subst c; discriminate.
Qed.
Lemma punct_flush t ls cur : first_punct t -> scans t (ls, Word cur) = scans t (fl cur ++ ls, Word []).
Proof.
  destruct t as [|c t]; simpl; [intros []|]. intros H. rewrite (punct_not_space _ H), H. reflexivity.
Qed.
Lemma place t s L closed prev brk sep ls cur :
  splits t L closed -> (to_prev s = true -> first_punct t) -> (to_next s = true -> closed = true) ->
  separator prev brk s sep -> (brk = true -> cur = []) ->
  (cur = [] \/ exists s0, prev = Some s0 /\ to_next s0 = false) ->
  ready (scans (sep ++ t) (ls, Word cur)) (Some s) false /\
  content (scans (sep ++ t) (ls, Word cur)) = rev L ++ content (ls, Word cur).
Proof.
  intros Hs Hp Hn S A B. rewrite scans_app.
  assert (E : scans t (scans sep (ls, Word cur)) = scans t (fl cur ++ ls, Word [])).
  { destruct (@sep_flush _ _ _ _ ls cur S A B) as [->|[-> Hq]]; [reflexivity|]. apply punct_flush; auto. }
  rewrite E. destruct (Hs (fl cur ++ ls)) as (ls' & cur' & -> & C & D). split.
  - exists ls', cur'. split; auto. split; [discriminate|]. destruct (to_next s) eqn:N; auto.
    right. exists s. auto.
  - exact C.
Qed.
Lemma Good_token t L : splits t L false -> Good [AddToken t] L.
Proof.
  intros Hs prev brk rest out st H (ls & cur & -> & A & B). inversion H; subst.
  exists (sep ++ t), out0, (Some NoStick), false. rewrite app_assoc.
  destruct (@place t NoStick L false prev brk sep ls cur) as [R C]; auto; try discriminate.
Qed.
Lemma Good_sticky t s L closed : splits t L closed -> (to_prev s = true -> first_punct t) ->
  (to_next s = true -> closed = true) -> Good [AddSticky t s] L.
Proof.
  intros Hs Hp Hn prev brk rest out st H (ls & cur & -> & A & B). inversion H; subst.
  exists (sep ++ t), out0, (Some s), false. rewrite app_assoc.
  destruct (@place t s L closed prev brk sep ls cur) as [R C]; auto.
Qed.

(** Words and quoted strings. *)
Lemma wordc_spec c : is_wordc c = true -> is_space c = false /\ is_punct c = false /\ is_quote c = false.
Proof. unfold is_wordc. destruct (is_space c), (is_punct c), (is_quote c); auto; discriminate. Qed.
Lemma scan_word t : forall ls cur, Forall (fun c => is_wordc c = true) t ->
  scans t (ls, Word cur) = (ls, Word (cur ++ t)).
Proof.
  induction t as [|c t IH]; intros ls cur H; simpl; [rewrite app_nil_r; auto|].
  inversion H as [|? ? Hc Ht]; subst. apply wordc_spec in Hc as (H1 & H2 & H3). rewrite H1, H2, H3.
  unfold scans in IH. rewrite IH by auto. rewrite <- app_assoc. reflexivity.
Qed.
Lemma splits_word t : t <> [] -> Forall (fun c => is_wordc c = true) t -> splits t [t] false.
Proof.
  intros Hn H ls. exists ls, t. rewrite scan_word by auto. split; auto. split; [|discriminate].
  destruct t; [congruence|reflexivity].
Qed.
Lemma scan_quoted t : forall ls cur, Forall (fun c => c <> 34%N) t ->
  scans t (ls, Quoted cur) = (ls, Quoted (cur ++ t)).
Proof.
  induction t as [|c t IH]; intros ls cur H; simpl; [rewrite app_nil_r; auto|].
  inversion H as [|? ? Hc Ht]; subst. unfold is_quote. apply N.eqb_neq in Hc. rewrite Hc.
  unfold scans in IH. rewrite IH by auto. rewrite <- app_assoc. reflexivity.
Qed.
Lemma splits_quoted t : Forall (fun c => c <> 34%N) t -> splits (34%N :: t ++ [34%N]) [34%N :: t ++ [34%N]] true.
Proof.
  intros H ls. exists ((34%N :: t ++ [34%N]) :: ls), []. split; auto.
  change (scans (34%N :: t ++ [34%N]) (ls, Word [])) with (scans (t ++ [34%N]) (ls, Quoted [34%N])).
  rewrite scans_app, scan_quoted by auto. reflexivity.
Qed.
Lemma splits_weaken t L b : splits t L b -> splits t L false.
Proof. intros H ls. destruct (H ls) as (l & c & A & B & _). exists l, c. repeat split; auto. discriminate. Qed.

(** Numbers: digits glued to an empty token. *)
Lemma digits_wordc s : Forall is_digit s -> Forall (fun c => is_wordc c = true) s.
Proof.
  intros H. eapply Forall_impl; [|exact H]. intros c D. unfold is_digit in D.
  unfold is_wordc, is_space, is_punct, is_quote.
  cbn [tx map String.list_ascii_of_string existsb Ascii.N_of_ascii].
  repeat match goal with |- context [N.eqb c ?k] => replace (N.eqb c k) with false by (symmetry; apply N.eqb_neq; vm_compute (k); unfold sp, nl; cbn; lia) end.
  reflexivity.
Qed.
Lemma glue ds : forall prev rest out ls cur, Forall (fun c => is_wordc c = true) ds ->
  laid (Some prev) false (map (fun d => AddSticky [d] Prev) ds ++ rest) out -> to_next prev = false ->
  exists o2 prev', out = ds ++ o2 /\ laid (Some prev') false rest o2 /\ to_next prev' = false /\
    scans ds (ls, Word cur) = (ls, Word (cur ++ ds)).
Proof.
  induction ds as [|d ds IH]; intros prev rest out ls cur W H N.
  - exists out, prev. simpl. rewrite app_nil_r. auto.
  - cbn [map app] in H. inversion H; subst. inversion W as [|? ? Wd Wds]; subst.
    assert (sep = []) as ->.
    { match goal with S : separator _ _ _ sep |- _ => inversion S; subst; auto; discriminate end. }
    match goal with HL : laid (Some Prev) false _ out0 |- _ => rename HL into HL end.
    destruct (IH Prev rest out0 ls (cur ++ [d]) Wds) as (o2 & p' & -> & L2 & N2 & S2); auto.
    exists o2, p'. split; auto. split; auto. split; auto. cbn [scans fold_left].
    pose proof (@wordc_spec _ Wd) as (H1 & H2 & H3). cbn [scan]. rewrite H1, H2, H3.
    unfold scans in S2. rewrite S2, <- app_assoc. reflexivity.
Qed.
Lemma Good_number x : Good (wr_number x) [int_to_string x].
Proof.
  intros prev brk rest out st H (ls & cur & -> & A & B). unfold wr_number in H. cbn [app] in H.
  inversion H; subst. destruct (int_to_string_spec x) as (D & _ & Ne & _).
  destruct (@glue (int_to_string x) NoStick rest out0 (fl cur ++ ls) [] (@digits_wordc _ D) H6 eq_refl) as (o2 & p' & -> & L2 & N2 & S2).
  exists (sep ++ int_to_string x), o2, (Some p'), false. rewrite <- !app_assoc. split; auto. split; auto.
  rewrite scans_app. assert (scans sep (ls, Word cur) = (fl cur ++ ls, Word [])) as ->.
  { destruct (@sep_flush _ _ _ _ ls cur H4 A B) as [E|[_ E]]; [exact E|discriminate]. }
  rewrite S2. split.
  - exists (fl cur ++ ls), (int_to_string x). split; auto. split; [discriminate|]. right. eauto.
  - simpl. destruct (int_to_string x); [congruence|reflexivity].
Qed.
Lemma Good_tyvar v : Good (wr_tyvar v) [tx "t" ++ int_to_string (N.of_nat v)].
Proof.
  intros prev brk rest out st H (ls & cur & -> & A & B). unfold wr_tyvar, wr_number in H. cbn [app] in H.
  inversion H; subst. destruct (int_to_string_spec (N.of_nat v)) as (D & _ & Ne & _).
  match goal with HL : laid (Some Next) false _ _ |- _ => inversion HL; subst end.
  assert (sep0 = []) as ->.
  { match goal with S : separator _ _ _ sep0 |- _ => inversion S; subst; auto; discriminate end. }
  match goal with HL' : laid (Some NoStick) false _ _ |- _ => rename HL' into HL end.
  match goal with HS : separator _ _ _ sep |- _ => rename HS into HSep end.
  destruct (@glue (int_to_string (N.of_nat v)) NoStick rest out (fl cur ++ ls) (tx "t") (@digits_wordc _ D) HL eq_refl) as (o2 & p' & -> & L2 & N2 & S2).
  exists (sep ++ tx "t" ++ int_to_string (N.of_nat v)), o2, (Some p'), false. rewrite <- !app_assoc. split; auto. split; auto.
  rewrite scans_app. assert (scans sep (ls, Word cur) = (fl cur ++ ls, Word [])) as ->.
  { destruct (@sep_flush _ _ _ _ ls cur HSep A B) as [E|[_ E]]; [exact E|discriminate]. }
  rewrite scans_app. change (scans (tx "t") (fl cur ++ ls, Word [])) with (fl cur ++ ls, Word (tx "t")).
  rewrite S2. split.
  - exists (fl cur ++ ls), (tx "t" ++ int_to_string (N.of_nat v)). split; auto. split; [discriminate|]. right. eauto.
  - reflexivity.
Qed.
