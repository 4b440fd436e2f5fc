(** The code generated for a fold computes the structural recursion. *)
From Verif Require Import FoldSpec OptEv EvalFacts Orders CompileCorrect GenSpec GenFacts GenNames.
Set Implicit Arguments.

Lemma lookup_add_all_not en x : forall ns vs, length ns = length vs -> ~ In x ns -> lookup x (add_all en ns vs) = lookup x en.
Proof.
  intros ns. revert en. induction ns as [|n ns IH]; intros en [|v vs] H Hx; simpl in *; try discriminate; auto.
  rewrite IH; auto. simpl. destruct (Nat.eqb_spec x n); [subst; tauto|auto].
Qed.

Section Fold.
  Variables (fold temp real : name) (ts : list ty) (body : expr) (en : env).
  Hypothesis Hft : fold <> temp.
  Variable brs : list (name * list name * expr).
  Definition fbody : expr := ELet real (EMatch (EName temp) brs) body.
  Definition fval : value := VFn en (Some fold) [temp] fbody.
  Definition fenv (v : value) : env := (fold, fval) :: (temp, v) :: en.
  (** The body of the fold. *)
  Definition alg (v w r : value) : Prop := exists c, ev c ((real, w) :: fenv v) body r.
  Variable tbl : table.
  (** Each branch is that of a constructor in the table. *)
  Definition fbranch (br : name * list name * expr) (e : name * (name * list bool)) : Prop :=
    exists fs bs, br = (fst e, bs, EConstruct (fst (snd e)) ts
       (map (fun fb : option sty * name => match fst fb with None => ECall (EName fold) [EName (snd fb)] | Some _ => EName (snd fb) end) (combine fs bs)))
      /\ length bs = length fs /\ NoDup bs /\ ~ In fold bs /\ snd (snd e) = map is_rec fs.
  Hypothesis Hbr : Forall2 fbranch brs tbl.

  Lemma branch_lookup c : forall bs b, find_branch c brs = Some (bs, b) ->
    exists c' recs, lookup c tbl = Some (c', recs) /\ fbranch (c, bs, b) (c, (c', recs)).
  Proof.
    clear - Hbr. induction Hbr as [|[[k bs0] b0] [k' [c' recs]] l l' Hx Hl IH]; simpl; intros bs b H; [discriminate|].
    pose proof Hx as (fs & bs1 & E & _). injection E as -> <- _. simpl.
    rewrite (Nat.eqb_sym c k'). destruct (Nat.eqb_spec k' c) as [->|Hne]; [|eapply IH; eauto].
    injection H as <- <-. exists c', recs. split; auto.
  Qed.
  Lemma table_branch c c' recs : lookup c tbl = Some (c', recs) ->
    exists bs b, find_branch c brs = Some (bs, b) /\ fbranch (c, bs, b) (c, (c', recs)).
  Proof.
    clear - Hbr. induction Hbr as [|[[k bs0] b0] [k' [c0 recs0]] l l' Hx Hl IH]; simpl; intros H; [discriminate|].
    pose proof Hx as (fs & bs1 & E & _). injection E as -> <- _. simpl.
    rewrite (Nat.eqb_sym c k') in H. destruct (Nat.eqb_spec k' c) as [->|Hne]; [|eapply IH; eauto].
    injection H as <- <-. exists bs0, b0. split; auto.
  Qed.

  (** Calling the fold on a value. *)
  Definition folds (v r : value) : Prop := exists c, ev c (fenv v) fbody r.

  Lemma call_fold v : call_env en (Some fold) [temp] fbody [v] = fenv v.
  Proof. auto. Qed.

  (** The fields of a node. *)
  Inductive repl (P : value -> value -> Prop) : list bool -> list value -> list value -> Prop :=
  | repl_nil : repl P [] [] []
  | repl_rec f r recs fs fs' : P f r -> repl P recs fs fs' -> repl P (true :: recs) (f :: fs) (r :: fs')
  | repl_keep f recs fs fs' : repl P recs fs fs' -> repl P (false :: recs) (f :: fs) (f :: fs').

  Lemma repl_impl (P Q : value -> value -> Prop) recs fs fs' : (forall f r, P f r -> Q f r) -> repl P recs fs fs' -> repl Q recs fs fs'.
  Proof. intros H. induction 1; constructor; auto. Qed.
  Definition fexpr (fb : option sty * name) : expr :=
    match fst fb with None => ECall (EName fold) [EName (snd fb)] | Some _ => EName (snd fb) end.

  Lemma fields_ev E : lookup fold E = Some fval -> forall (fs : list (option sty)) bs vs ws c,
    length bs = length fs -> Forall2 (fun b v => lookup b E = Some v) bs vs ->
    evs c E (map fexpr (combine fs bs)) ws ->
    repl (fun v r => exists d, d < c /\ ev d (fenv v) fbody r) (map is_rec fs) vs ws.
  Proof.
    intros HF. induction fs as [|f fs IH]; intros [|b bs] vs ws c Hl HE Hev; simpl in Hl; try discriminate.
    - inversion HE; subst. inversion Hev; subst. constructor.
    - inversion HE as [|? v ? vs' Hb HE']; subst. simpl in Hev. inversion Hev as [|i j ? ? ? w ws' H1 H2]; subst.
      assert (R : repl (fun v r => exists d, d < i + j /\ ev d (fenv v) fbody r) (map is_rec fs) vs' ws').
      { assert (R0 := IH bs vs' ws' j ltac:(lia) HE' H2). eapply repl_impl; [|exact R0].
        intros f0 r0 (d & Hd & He). exists d. split; [lia|auto]. }
      destruct f as [t|]; unfold fexpr in H1; simpl in H1.
      + inversion H1; subst. simpl. match goal with H : lookup b E = Some ?x, H' : lookup b E = Some ?y |- _ => assert (x = y) by congruence; subst end.
        constructor. auto.
      + inversion H1 as [| | | |i1 j1 m ? ? ? cenv rc ps bd vs1 ? Hf Ha Hlen Hb' | | | | | | | | | |]; subst.
        inversion Hf; subst. inversion Ha as [|? ? ? ? ? ? ? Hx Hn]; subst. inversion Hn; subst. inversion Hx; subst.
        match goal with H : lookup fold E = Some (VFn _ _ _ _) |- _ => rewrite HF in H; injection H as <- <- <- <- end.
        match goal with H : lookup b E = Some ?x, H' : lookup b E = Some ?y |- _ => assert (x = y) by congruence; subst end.
        simpl. constructor; auto. exists m. split; [lia|]. exact Hb'.
  Qed.
  Lemma ev_fields E : lookup fold E = Some fval -> forall (fs : list (option sty)) bs vs ws,
    length bs = length fs -> Forall2 (fun b v => lookup b E = Some v) bs vs ->
    repl folds (map is_rec fs) vs ws -> exists c, evs c E (map fexpr (combine fs bs)) ws.
  Proof.
    intros HF. induction fs as [|f fs IH]; intros [|b bs] vs ws Hl HE HR; simpl in Hl; try discriminate.
    - inversion HE; subst. inversion HR; subst. exists 0. constructor.
    - inversion HE as [|? v ? vs' Hb HE']; subst.
      destruct f as [t|]; simpl in HR; inversion HR; subst.
      + destruct (IH bs vs' fs' ltac:(lia) HE') as [c Hc]; auto. exists (0 + c). cbn [map combine]. constructor; auto.
        unfold fexpr. cbn [fst snd]. constructor. auto.
      + destruct (IH bs vs' fs' ltac:(lia) HE') as [c Hc]; auto.
        match goal with H : folds v r |- _ => destruct H as [d Hd] end.
        eexists. simpl. constructor; [|exact Hc]. unfold fexpr. simpl.
        eapply ev_call with (vs := [v]); [constructor; exact HF|econstructor; [constructor; exact Hb|constructor]|reflexivity|exact Hd].
  Qed.

  Lemma lookups_bound ns : NoDup ns -> forall E vs, length ns = length vs ->
    Forall2 (fun b v => lookup b (add_all E ns vs) = Some v) ns vs.
  Proof.
    induction 1 as [|n ns Hn Hnd IH]; intros E [|v vs] Hl; simpl in *; try discriminate; constructor.
    - rewrite lookup_add_all_not; auto. simpl. rewrite Nat.eqb_refl. auto.
    - apply IH. lia.
  Qed.

  Lemma repl_length P recs vs ws : repl P recs vs ws -> length recs = length vs /\ length ws = length vs.
  Proof. induction 1; simpl; lia. Qed.

  (** One level of the fold. *)
  Lemma fold_level c v r : ev c (fenv v) fbody r ->
    exists k k' recs vs ws, v = VComp k vs /\ lookup k tbl = Some (k', recs) /\ length vs <= max_fields /\
      repl (fun v r => exists d, d < c /\ ev d (fenv v) fbody r) recs vs ws /\ alg v (VComp k' ws) r.
  Proof.
    intros H. unfold fbody in H. inversion H as [| | | | | | | | | | |i j ? ? ? ? w ? Hm Hb| | |]; subst.
    inversion Hm as [| | | | | | | | |i1 j1 ? ? ? k vs bs b ? Hd Hfb Hlen He| | | | |]; subst.
    inversion Hd; subst.
    match goal with H : lookup temp (fenv v) = Some _ |- _ =>
      unfold fenv in H; simpl in H; destruct (Nat.eqb_spec temp fold) as [Hq|_]; [congruence|]; rewrite Nat.eqb_refl in H; injection H as -> end.
    destruct (@branch_lookup _ _ _ Hfb) as (k' & recs & Hl & fs & bs1 & E & Hbl & Hnd & Hnf & Hrec). simpl in Hrec. subst recs.
    injection E as <- ->. simpl in He.
    inversion He as [| | | | | | | | | |j2 ? ? ? ? ws Hws Hmax| | | |]; subst.
    exists k, k', (map is_rec fs), vs, ws. split; [auto|]. split; [auto|].
    assert (R : repl (fun v r => exists d, d < 0 + j1 + j /\ ev d (fenv v) fbody r) (map is_rec fs) vs ws).
    { eapply fields_ev with (c := j1) in Hws; eauto.
      - eapply repl_impl; [|exact Hws]. simpl. intros f r0 (d & Hd' & He'). exists d. split; [lia|auto].
      - rewrite lookup_add_all_not; auto. unfold fenv. simpl. rewrite Nat.eqb_refl. auto.
      - apply lookups_bound; auto. }
    split; [apply repl_length in R; lia|]. split; [exact R|]. exists j. exact Hb.
  Qed.
  Lemma level_fold k k' recs vs ws r : lookup k tbl = Some (k', recs) -> length vs <= max_fields ->
    repl folds recs vs ws -> alg (VComp k vs) (VComp k' ws) r -> folds (VComp k vs) r.
  Proof.
    intros Hl Hm HR [j Hb]. destruct (@table_branch _ _ _ Hl) as (bs & b & Hfb & fs & bs1 & E & Hbl & Hnd & Hnf & Hrec).
    simpl in Hrec. subst recs. injection E as <- ->. simpl in Hfb.
    pose proof (repl_length HR) as [L1 L2]. rewrite map_length in L1.
    set (E2 := add_all (fenv (VComp k vs)) bs vs).
    assert (Hws : exists c, evs c E2 (map fexpr (combine fs bs)) ws).
    { eapply ev_fields; eauto.
      - unfold E2. rewrite lookup_add_all_not; auto; [|lia]. unfold fenv. simpl. rewrite Nat.eqb_refl. auto.
      - apply lookups_bound; auto. lia. }
    destruct Hws as [c Hws].
    eexists. unfold fbody. eapply ev_let; [|exact Hb].
    eapply ev_match; [|exact Hfb| |].
    - constructor. unfold fenv. simpl. destruct (Nat.eqb_spec temp fold) as [Hq|_]; [congruence|]. rewrite Nat.eqb_refl. auto.
    - lia.
    - constructor; [exact Hws|lia].
  Qed.

  Theorem fold_cata v r : folds v r <-> cata tbl alg v r.
  Proof.
    split.
    - intros [c H]. revert v r H. induction c as [c IH] using lt_wf_ind. intros v r H.
      apply fold_level in H as (k & k' & recs & vs & ws & -> & Hl & Hm & HR & Ha).
      econstructor; eauto. clear - HR IH. induction HR as [|f r recs fs fs' (d & Hd & He) HR IHR|f recs fs fs' HR IHR]; constructor; eauto.
    - revert v r.
      apply (@cata_ind2 tbl alg folds (fun recs fs fs' => repl folds recs fs fs')).
      + intros. eapply level_fold; eauto.
      + constructor.
      + intros. constructor; auto.
      + intros. constructor; auto.
  Qed.
End Fold.

(** Generating an expression leaves the tables of types alone. *)
Definition exts {A} (B : list sym) (m : gen A) : Prop := forall s a s', m s = Some (a, s') -> ext B s s'.
Lemma exts_bind {A C} B (m : gen A) (f : A -> gen C) : exts B m -> (forall a, exts B (f a)) -> exts B (gbind m f).
Proof. intros H1 H2 s b s' H. apply gbind_some in H as (a & s1 & E1 & E2). eapply ext_trans; [eapply H1|eapply H2]; eauto. Qed.
Lemma exts_ret {A} B (a : A) : exts B (gret a).
Proof. intros s b s' H. injection H as <- <-. apply ext_refl. Qed.
Lemma exts_get {A} B (f : gst -> option A) : exts B (gget f).
Proof. intros s b s' H. apply gget_some in H as [_ ->]. apply ext_refl. Qed.
Lemma exts_fail {A} B : exts B (@gfail A).
Proof. intros s b s' H. discriminate. Qed.
Lemma exts_fresh B : exts B fresh_name.
Proof. intros s b s' H. injection H as <- <-. eapply ext_incl; [|apply ext_fresh_name]. inc. Qed.
Lemma exts_name B x : In x B -> exts B (gen_name x).
Proof. intros Hx s b s' H. apply gen_name_eq in H as [-> ->]. eapply ext_incl; [|apply ext_gen_name]. intros y [<-|[]]; auto. Qed.
Lemma exts_map {A C} B (f : A -> gen C) l : (forall a, In a l -> exts B (f a)) -> exts B (gmap f l).
Proof.
  induction l; simpl; intros Hf; [apply exts_ret|]. apply exts_bind; [apply Hf; auto|]. intros.
  apply exts_bind; [apply IHl; auto|]. intros; apply exts_ret.
Qed.
Lemma exts_inst B vs : exts B (fresh_inst vs).
Proof. intros s u s' H. apply fresh_inst_ext in H as (H & _). eapply ext_incl; [|exact H]. inc. Qed.
Lemma exts_inst_ty B vs t : exts B (inst_ty vs t).
Proof. intros s u s' H. apply inst_ty_ext in H as (H & _). eapply ext_incl; [|exact H]. inc. Qed.
Lemma exts_incl {A} B B' (m : gen A) : exts B m -> (forall x, In x B -> In x B') -> exts B' m.
Proof. intros H HB s a s' E. eapply ext_incl; eauto. Qed.
Ltac ex := repeat match goal with
  | |- exts _ (gbind _ _) => apply exts_bind; [|intros]
  | |- exts _ (gret _) => apply exts_ret
  | |- exts _ (gget _) => apply exts_get
  | |- exts _ gfail => apply exts_fail
  | |- exts _ fresh_name => apply exts_fresh
  | |- exts _ (gen_name _) => apply exts_name
  | |- exts _ (gmap _ _) => apply exts_map; intros
  | |- exts _ (fresh_inst _) => apply exts_inst
  | |- exts _ (inst_ty _ _) => apply exts_inst_ty
  | |- exts _ (tv_of _) => apply exts_get
  | |- exts _ (gen_ty _) => apply exts_get
  | |- exts _ (lookup_name _) => apply exts_get
  | |- exts _ (match ?b with _ => _ end) => destruct b
  | H : exts ?B (gen_expr ?e) |- exts _ (gen_expr ?e) => eapply exts_incl; [exact H|]; intros; simpl; rewrite ?in_app_iff; tauto
  end; simpl; auto.
Lemma gen_expr_ext e : exts (sbinders e) (gen_expr e).
Proof.
  induction e using sexpr_ind'; cbn [gen_expr sbinders]; ex.
  - fold (gen_cases f). assert (G : exts (flat_map (fun c => snd (fst c) ++ sbinders (snd c)) cs) (gen_cases f cs)).
    { induction H as [|[[c xs] b] cs Hb _ IH]; simpl in *; ex.
      - apply in_or_app. left. apply in_or_app. auto.
      - fold (gen_cases f). eapply exts_incl; [exact IH|]. intros; apply in_or_app; auto. }
    eapply exts_incl; [exact G|]. intros; apply in_or_app; auto.
  - unfold gen_fold_branch. ex.
Qed.

(** The branches that are generated. *)
Lemma fold_branches_table fold ts cs : forall s brs s', gmap (gen_fold_branch fold ts) cs s = Some (brs, s') ->
  fold < g_nn s -> Forall2 (fbranch fold ts) brs (fold_table s cs).
Proof.
  induction cs as [|c cs IH]; simpl; intros s brs s' H Hn; [gb; constructor|].
  apply gbind_some in H as (br & s1 & E & H). apply gbind_some in H as (brs' & s2 & E2 & H). injection H as <- <-.
  unfold gen_fold_branch in E. apply gbind_some in E as (fs & s3 & E3 & E). apply gget_some in E3 as [E3 ->].
  apply gbind_some in E as (bs & s3 & E4 & E). injection E as <- <-.
  apply fresh_names_ok in E4 as (X1 & Y1 & Z1 & [W1 W2]).
  apply IH in E2; [|destruct X1; lia].
  assert (EF : fold_table s3 cs = fold_table s cs) by (unfold fold_table; destruct X1; rewrite e_fields; auto).
  constructor; [|rewrite <- EF; auto]. rewrite E3. exists fs, bs.
  simpl. split; [reflexivity|]. split; [auto|split; [auto|split; [|auto]]].
  intros Hin. rewrite Forall_forall in W2. apply W2 in Hin. lia.
Qed.

Lemma gen_fold_ok t x body s e s' n args out cs : gen_expr (SFold t x body) s = Some (e, s') ->
  gen_ty_in s t = Some (TFn [TNamed n args] out) -> lookup n (g_tyctors s) = Some cs ->
  let real := g_nn s in let temp := S real in let fold := S temp in
  exists body' s1 s2 brs, gen_expr body s1 = Some (body', s2) /\ g_names s1 = (x, real) :: g_names s /\ g_nn s1 = S fold /\
    ext [x] s s1 /\
    e = fold_core fold (TFn [TNamed n args] out) temp (TNamed n args) real (EMatch (EName temp) brs) body' /\
    Forall2 (fbranch fold (args ++ [out])) brs (fold_table s cs).
Proof.
  cbn [gen_expr]. intros HG Ht Hc. cbv zeta.
  apply gbind_some in HG as (t' & st & Et & HG). unfold gen_ty in Et. apply gget_some in Et as [Et ->].
  rewrite Ht in Et. injection Et as <-.
  apply gbind_some in HG as (r & sx & E & HG). apply gen_name_eq in E as [-> ->].
  apply gbind_some in HG as (tp & sy & E & HG). injection E as <- <-.
  apply gbind_some in HG as (f & sz & E & HG). injection E as <- <-.
  apply gbind_some in HG as (b' & s1 & E1 & HG). cbn [g_nn up_nn up_names] in *.
  apply gbind_some in HG as (cs' & s1' & Ec & HG). apply gget_some in Ec as [Ec ->].
  apply gbind_some in HG as (brs & s2 & Eb & HG). injection HG as <- <-.
  match type of E1 with gen_expr _ ?S = _ => set (sz := S) in * end.
  assert (Xz : ext [x] s sz).
  { eapply ext_trans; [apply ext_gen_name|]. eapply ext_incl; [|eapply ext_trans; apply ext_fresh_name]. inc. }
  pose proof (@gen_expr_ext _ _ _ _ E1) as X1.
  exists b', sz, s1, brs. split; [auto|]. split; [auto|]. split; [auto|]. split; [auto|]. split; [auto|].
  apply fold_branches_table in Eb; [|destruct X1; simpl in *; lia].
  assert (cs' = cs). { destruct X1, Xz. rewrite e_tyctors, e_tyctors0, Hc in Ec. congruence. }
  subst cs'. replace (fold_table s cs) with (fold_table s1 cs); auto.
  unfold fold_table. destruct X1, Xz. rewrite e_fields, e_fields0. auto.
Qed.

From Verif Require Import IterateOk.
Lemma ends_ev o en e v : ends o en e (Ok v) <-> exists c, ev c en e v.
Proof.
  split.
  - intros [_ [m H]]. apply eval_order with (o2 := FnFirst) in H. eapply eval_ev; eauto.
  - intros [c H]. split; [discriminate|]. apply (proj1 ev_eval) in H as [n H]. exists n. eapply eval_order; eauto.
Qed.
Lemma cata_iff tbl (P Q : value -> value -> value -> Prop) v r : (forall v w r, P v w r <-> Q v w r) -> cata tbl P v r <-> cata tbl Q v r.
Proof.
  intros H. split; revert v r.
  - apply (@cata_ind2 tbl P (cata tbl Q) (fun recs fs fs' => cata_fields tbl Q recs fs fs'));
      intros; econstructor; eauto; apply H; auto.
  - apply (@cata_ind2 tbl Q (cata tbl P) (fun recs fs fs' => cata_fields tbl P recs fs fs'));
      intros; econstructor; eauto; apply H; auto.
Qed.

Lemma fold_ends fold temp real ts t pt body brs tbl : fold <> temp -> Forall2 (fbranch fold ts) brs tbl ->
  forall o en ve v r, ends o en ve (Ok v) ->
  let F := VFn en (Some fold) [temp] (ELet real (EMatch (EName temp) brs) body) in
  (ends o en (ECall (fold_core fold t temp pt real (EMatch (EName temp) brs) body) [ve]) (Ok r) <->
   cata tbl (fun v w r => ends o ((real, w) :: (fold, F) :: (temp, v) :: en) body (Ok r)) v r).
Proof.
  intros Hft Hbr o en ve v r Hve F.
  rewrite (@cata_iff _ _ (alg fold temp real body en brs)); [|intros; unfold alg; rewrite ends_ev; reflexivity].
  rewrite <- (@fold_cata fold temp real ts body en Hft brs tbl Hbr v r). rewrite ends_ev. apply ends_ev in Hve as [cv Hve].
  unfold fold_core. split.
  - intros [c H]. inversion H as [| | | |i j m ? ? ? cenv rc ps bd vs ? Hf Ha Hlen Hb| | | | | | | | | |]; subst.
    inversion Hf as [| | | | | | | | | | | |? ? ? ? ? ? ps' bd' ? Hs Hb'| |]; subst. injection Hs as <- <-.
    inversion Hb'; subst. match goal with H : lookup fold _ = Some _ |- _ => simpl in H; rewrite Nat.eqb_refl in H; injection H as <- <- <- <- end.
    inversion Ha as [|? ? ? ? ? w ? Hw Hn]; subst. inversion Hn; subst. rewrite (ev_det Hw Hve) in Hb.
    exists m. exact Hb.
  - intros [c H]. eexists. eapply ev_call with (cenv := en) (rec := Some fold) (ps := [temp]) (body := fbody temp real body brs) (vs := [v]); [| | |exact H].
    + eapply ev_letrec; [reflexivity|]. constructor. simpl. rewrite Nat.eqb_refl. reflexivity.
    + econstructor; [exact Hve|constructor].
    + reflexivity.
Qed.
