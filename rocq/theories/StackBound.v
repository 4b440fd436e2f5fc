(** C02: the simulation of CompileCorrect.v with a bound on the height of the machine's stack.  Every
    activation takes at most [K] slots, so a run with at most [d] nested activations stays below
    [K * (d + 1)]. *)
From Verif Require Import EvalFacts Vm CompileStatic CompileCorrect StackSpec.
Set Implicit Arguments.

(** Stack slots an expression needs above the slots in use when its code starts, together with the
    frames of the functions defined inside it (an upper bound). *)
Fixpoint need (e : expr) : nat :=
  match e with
  | EBool _ | EInt _ | EString _ | EName _ | ETrap _ _ => 1
  | ECall f args => need f + list_sum (map need args) + 2
  | EIf c t e => need c + need t + need e
  | EOp a _ b => need a + need b
  | EIntr _ args => list_sum (map need args) + 1
  | ELam ps b => length ps + length (free_variables (ELam ps b)) + 4 + need b
  | EMatch d brs => need d + list_sum (map (fun br => length (snd (fst br)) + need (snd br)) brs)
  | EConstruct _ _ fs => list_sum (map need fs) + 1
  | ELet _ v e => need v + need e
  | ELetRec n t v e => need v + need e + length (free_variables (ELetRec n t v e)) + 4
  | EPi _ e => need e
  | EPiApp e _ => need e
  end.

Lemma need_pos e : 1 <= need e.
Proof. induction e; simpl; lia. Qed.
Lemma need_strip e : need (strip_pis e) = need e.
Proof. induction e; simpl; auto. Qed.
Lemma need_In (l : list expr) a : In a l -> need a <= list_sum (map need l).
Proof. induction l; simpl; [tauto|]. intros [->|H]; [lia|]. apply IHl in H; lia. Qed.
Lemma need_branch (brs : list (name * list name * expr)) br : In br brs ->
  length (snd (fst br)) + need (snd br) <= list_sum (map (fun br => length (snd (fst br)) + need (snd br)) brs).
Proof. induction brs; simpl; [tauto|]. intros [->|H]; [lia|]. apply IHbrs in H; lia. Qed.
Lemma need_length l : length l <= list_sum (map need l).
Proof. induction l; simpl; auto. pose proof (need_pos a). lia. Qed.
Lemma filter_length_le {A} (f : A -> bool) l : length (filter f l) <= length l.
Proof. induction l; simpl; auto. destruct (f a); simpl; lia. Qed.

Section Sim.
  Variable full : list instr.
  Variable code : list mop.
  Let la := label_addrs 0 [] full.
  Hypothesis Hlink : link_all la full = Some code.
  Hypothesis Huniq : forall l, cnt l full <= 1.
  Variable K : nat.

  Notation code_at := (code_at full).
  Notation placed := (placed full).
  Notation at_op H E := (at_op Hlink H E).

  (** ** Machine steps through states of bounded height *)
  Inductive bsteps (B : nat) : nat -> nat -> stack -> nat -> stack -> Prop :=
  | bsteps0 pc st : length st <= B -> bsteps B 0 pc st pc st
  | bstepsS k pc st pc1 st1 pc2 st2 : length st <= B ->
      step code pc st = Next pc1 st1 -> bsteps B k pc1 st1 pc2 st2 -> bsteps B (S k) pc st pc2 st2.

  Lemma bsteps_trans B a b pc st pc1 st1 pc2 st2 :
    bsteps B a pc st pc1 st1 -> bsteps B b pc1 st1 pc2 st2 -> bsteps B (a + b) pc st pc2 st2.
  Proof. induction 1; simpl; auto. intros; econstructor; eauto. Qed.
  Lemma bsteps1 B pc st pc1 st1 : step code pc st = Next pc1 st1 -> length st <= B -> length st1 <= B ->
    bsteps B 1 pc st pc1 st1.
  Proof. intros; econstructor; eauto; constructor; auto. Qed.
  Lemma bsteps_le B B' k pc st pc1 st1 : bsteps B k pc st pc1 st1 -> B <= B' -> bsteps B' k pc st pc1 st1.
  Proof. induction 1; intros; econstructor; eauto; lia. Qed.
  Lemma bsteps_end B k pc st pc1 st1 : bsteps B k pc st pc1 st1 -> length st1 <= B.
  Proof. induction 1; auto. Qed.

  (** Height allowed with [d] activations on top of a frame starting at [base]. *)
  Definition lim (base d : nat) : nat := base + K * S d.
  Lemma lim_0 base d : base + K <= lim base d.
  Proof. unfold lim. rewrite Nat.mul_succ_r. lia. Qed.
  Lemma lim_le base d d' : d <= d' -> lim base d <= lim base d'.
  Proof. intros H. unfold lim. apply Nat.add_le_mono_l, Nat.mul_le_mono_l. lia. Qed.
  Lemma lim_S base base' d : base' <= base + K -> lim base' d <= lim base (S d).
  Proof. intros H. unfold lim. rewrite (Nat.mul_succ_r K (S d)). lia. Qed.

  (** Steps inside one activation. *)
  Definition lsteps (base : nat) := bsteps (base + K).

  Definition sim {A} (B : nat) (r : res A) (n pc : nat) (st : stack) (post : A -> nat -> stack -> Prop) : Prop :=
    match r with
    | Ok v => exists k pc' st', bsteps B k pc st pc' st' /\ post v pc' st'
    | Trap m => exists k pc' st', bsteps B k pc st pc' st' /\ step code pc' st' = Trapped m
    | OutOfFuel => exists k pc' st', n <= k /\ bsteps B k pc st pc' st'
    | Panic => True
    end.
  Definition dsim {A} (base : nat) (r : dres A) := sim (lim base (snd r)) (fst r).

  Lemma sim_B {A} B B' (r : res A) n pc st post : B <= B' -> sim B r n pc st post -> sim B' r n pc st post.
  Proof.
    intros HB. destruct r; simpl; auto; intros (k & pc' & st' & H1 & H2); exists k, pc', st'; split; auto;
      eapply bsteps_le; eauto.
  Qed.
  Lemma sim_pre {A} B (r : res A) n k pc st pc1 st1 post :
    bsteps B k pc st pc1 st1 -> sim B r n pc1 st1 post -> sim B r (k + n) pc st post.
  Proof.
    intros H; destruct r; simpl; auto; intros (k' & pc' & st' & H1 & H2); exists (k + k'), pc', st'.
    - split; auto. eapply bsteps_trans; eauto.
    - split; auto. eapply bsteps_trans; eauto.
    - split; [lia|]. eapply bsteps_trans; eauto.
  Qed.
  Lemma sim_le {A} B (r : res A) n m pc st post : m <= n -> sim B r n pc st post -> sim B r m pc st post.
  Proof.
    intros Hle; destruct r; simpl; auto. intros (k & pc' & st' & H1 & H2); exists k, pc', st'; split; auto; lia.
  Qed.

  Lemma dsim_le {A} base (r : dres A) n m pc st post : m <= n -> dsim base r n pc st post -> dsim base r m pc st post.
  Proof. apply sim_le. Qed.
  Lemma dsim_pre {A} base (r : dres A) n k pc st pc1 st1 post :
    lsteps base k pc st pc1 st1 -> dsim base r n pc1 st1 post -> dsim base r (k + n) pc st post.
  Proof. intros H. apply sim_pre. eapply bsteps_le; [exact H|apply lim_0]. Qed.
  Lemma dsim_steps {A} base (r : dres A) n k pc st pc1 st1 post :
    lsteps base k pc st pc1 st1 -> dsim base r n pc1 st1 post -> dsim base r n pc st post.
  Proof. intros H1 H2. eapply dsim_le; [|eapply dsim_pre; eauto]. lia. Qed.
  Lemma dsim_bind {A B} base (r : dres A) (f : A -> dres B) n pc st P Q :
    dsim base r n pc st P -> (forall v pc1 st1, P v pc1 st1 -> dsim base (f v) n pc1 st1 Q) ->
    dsim base (dbind r f) n pc st Q.
  Proof.
    unfold dsim, dbind. destruct r as [[v|m| |] d]; simpl; auto.
    intros (k & pc' & st' & H1 & H2) H. eapply sim_le with (n := k + n); [lia|].
    eapply sim_pre; [eapply bsteps_le; [exact H1|apply lim_le; lia]|].
    eapply sim_B; [apply lim_le, Nat.le_max_r|]. apply H; auto.
  Qed.
  Lemma dsim_post {A} base (r : dres A) n pc st (P Q : A -> nat -> stack -> Prop) :
    dsim base r n pc st P ->
    (forall v pc1 st1, P v pc1 st1 -> length st1 <= lim base (snd r) ->
       exists k pc2 st2, bsteps (lim base (snd r)) k pc1 st1 pc2 st2 /\ Q v pc2 st2) ->
    dsim base r n pc st Q.
  Proof.
    unfold dsim. destruct r as [[v|m| |] d]; simpl; auto. intros (k & pc' & st' & H1 & H2) H.
    destruct (H _ _ _ H2) as (k2 & pc2 & st2 & H3 & H4); [eapply bsteps_end; eauto|].
    exists (k + k2), pc2, st2; split; auto.
    eapply bsteps_trans; eauto.
  Qed.
  (** The usual way to continue after a result: steps inside the frame, or none. *)
  Lemma after_l base d k pc st pc1 st1 (Q : nat -> stack -> Prop) :
    lsteps base k pc st pc1 st1 -> Q pc1 st1 ->
    exists k pc2 st2, bsteps (lim base d) k pc st pc2 st2 /\ Q pc2 st2.
  Proof. intros H HQ. exists k, pc1, st1; split; auto. eapply bsteps_le; [exact H|apply lim_0]. Qed.
  Lemma after_0 B pc st (Q : nat -> stack -> Prop) : length st <= B -> Q pc st ->
    exists k pc2 st2, bsteps B k pc st pc2 st2 /\ Q pc2 st2.
  Proof. intros H HQ. exists 0, pc, st; split; auto. constructor; auto. Qed.
  Lemma dsim_ok {A} base (v : A) n pc st pc' st' (P : A -> nat -> stack -> Prop) k :
    lsteps base k pc st pc' st' -> P v pc' st' -> dsim base (dret (Ok v)) n pc st P.
  Proof.
    intros H HP. exists k, pc', st'. split; auto. eapply bsteps_le; [exact H|apply lim_0].
  Qed.
  Lemma dbind_ret {A B} (a : A) (f : A -> dres B) : dbind (dret (Ok a)) f = f a.
  Proof. unfold dbind, dret; simpl. destruct (f a); auto. Qed.

  (** ** Values *)
  Definition fn_ok (addr : nat) (tl : label) (rec : option name) (ps : list name) (body : expr)
             (caps : list name) : Prop :=
    fun_sz ps caps + need body + 1 <= K /\
    exists next st1 bcode f,
      code_at addr ([IEnter (length caps); ILabel tl] ++ bcode ++ [IReturn (length ps) (length caps)]) /\
      compile_expr body (fun_ctx tl ps rec caps) true (fun_st ps rec caps next) = Some (st1, bcode, f) /\
      placed f /\
      let Sc := ps ++ match rec with Some n => [n] | None => [] end ++ caps in
      NoDup Sc /\ wfx Sc body /\
      shape (match rec with Some n => Some (n, length ps) | None => None end) true body = true.

  Inductive vrel : value -> mval -> Prop :=
  | VRInt i : vrel (VInt i) (MInt i)
  | VRBool b : vrel (VBool b) (MBool b)
  | VRStr s : vrel (VStr s) (MStr s)
  | VRComp c vs ms : Forall2 vrel vs ms -> length vs <= max_fields -> vrel (VComp c vs) (MObj c ms)
  | VRFn cenv rec ps body caps tl addr vs ms :
      fn_ok addr tl rec ps body caps ->
      map (fun c => lookup c cenv) caps = map Some vs ->
      Forall2 vrel vs ms ->
      vrel (VFn cenv rec ps body) (MClo addr ms).

  Definition erel (Sc : list name) (en : env) (l : list (name * nat)) (sz : nat) (stk : stack) : Prop :=
    forall x, In x Sc -> exists v a mv, lookup x en = Some v /\ lookup x l = Some a /\ a < sz /\
                                       nth_error stk (sz - 1 - a) = Some mv /\ vrel v mv.

  Lemma erel_ext Sc en en' l l' sz sz' stk pushed :
    erel Sc en l sz stk ->
    (forall x, In x Sc -> lookup x en' = lookup x en) ->
    (forall x, In x Sc -> lookup x l' = lookup x l) -> sz' = sz + length pushed ->
    erel Sc en' l' sz' (pushed ++ stk).
  Proof.
    intros H He Hl -> x Hx. destruct (H x Hx) as (v & a & mv & H1 & H2 & H3 & H4 & H5).
    exists v, a, mv. rewrite He, Hl by auto. repeat split; auto; try lia.
    rewrite nth_error_app2 by lia. rewrite <- H4. f_equal; lia.
  Qed.
  Lemma erel_add x v mv Sc en l sz stk :
    erel Sc en l sz stk -> vrel v mv -> ~ In x Sc ->
    erel (x :: Sc) ((x, v) :: en) ((x, sz) :: l) (sz + 1) (mv :: stk).
  Proof.
    intros H Hv Hx y [<-|Hy].
    - exists v, sz, mv. simpl. rewrite Nat.eqb_refl. repeat split; auto; try lia.
      replace (sz + 1 - 1 - sz) with 0 by lia. auto.
    - destruct (H y Hy) as (v' & a & mv' & H1 & H2 & H3 & H4 & H5). exists v', a, mv'. simpl.
      destruct (Nat.eqb_spec y x); [subst; tauto|]. repeat split; auto; try lia.
      replace (sz + 1 - 1 - a) with (S (sz - 1 - a)) by lia. auto.
  Qed.
  Lemma erel_incl Sc Sc' en l sz stk : erel Sc en l sz stk -> incl Sc' Sc -> erel Sc' en l sz stk.
  Proof. intros H Hi x Hx; auto. Qed.

  Definition tinfo (ctx : fctx) (Sc : list name) (en : env) (l : list (name * nat)) (sz : nat) (stk : stack)
             (ret : nat) (below : stack) : Prop :=
    exists temps ms fnv args,
      stk = temps ++ rev ms ++ MInt (N.of_nat ret) :: fnv :: rev args ++ below /\
      length args = length (f_params ctx) /\
      f_entry_sz ctx = length args + 2 + length ms /\
      sz = length temps + f_entry_sz ctx /\
      (forall i p, nth_error (f_params ctx) i = Some p -> lookup p l = Some i) /\
      incl (f_params ctx) Sc /\
      match f_rec ctx with
      | None => True
      | Some n => In n Sc /\ exists cenv body caps addr vs,
          lookup n en = Some (VFn cenv (Some n) (f_params ctx) body) /\
          fnv = MClo addr ms /\ fn_ok addr (f_tail ctx) (Some n) (f_params ctx) body caps /\
          map (fun c => lookup c cenv) caps = map Some vs /\ Forall2 vrel vs ms
      end.

  Lemma tinfo_ext ctx Sc Sc' en en' l l' sz sz' stk pushed ret below :
    tinfo ctx Sc en l sz stk ret below ->
    (forall x, In x Sc -> lookup x en' = lookup x en) ->
    (forall x, In x Sc -> lookup x l' = lookup x l) -> sz' = sz + length pushed -> incl Sc Sc' ->
    tinfo ctx Sc' en' l' sz' (pushed ++ stk) ret below.
  Proof.
    intros (temps & ms & fnv & args & H1 & H2 & H3 & H4 & H5 & H6 & H7) He Hl -> Hi.
    exists (pushed ++ temps), ms, fnv, args. repeat split; auto.
    - rewrite H1, app_assoc; auto.
    - rewrite app_length; lia.
    - intros i p Hp. rewrite Hl; auto. apply H6. eapply nth_error_In; eauto.
    - intros x Hx; auto.
    - destruct (f_rec ctx) as [n|]; auto. destruct H7 as [Hn H7]. split; auto.
      destruct H7 as (cenv & body & caps & addr & vs & H7 & H8). exists cenv, body, caps, addr, vs.
      rewrite He; auto.
  Qed.

  Definition epost (tail : bool) (pc' : nat) (stk : stack) (ret : nat) (below : stack)
             (v : value) (pc1 : nat) (st1 : stack) : Prop :=
    exists mv, vrel v mv /\ ((pc1 = pc' /\ st1 = mv :: stk) \/ (tail = true /\ pc1 = ret /\ st1 = mv :: below)).

  Definition esim (n : nat) (e : expr) : Prop :=
    forall ctx tail st0 st1 c f pc en stk Sc ret below base,
      compile_expr e ctx tail st0 = Some (st1, c, f) -> code_at pc c -> placed f ->
      wfx Sc e -> shape (ctx_rec ctx) tail e = true ->
      erel Sc en (c_locals st0) (c_sz st0) stk ->
      length stk = c_sz st0 + base -> c_sz st0 + need e <= K ->
      (tail = true -> tinfo ctx Sc en (c_locals st0) (c_sz st0) stk ret below) ->
      dsim base (eval_d n (f_rec ctx) tail en e) n pc stk (epost tail (pc + size c) stk ret below).

  Lemma tinfo_base ctx Sc en l sz stk ret below base :
    tinfo ctx Sc en l sz stk ret below -> length stk = sz + base -> length below = base.
  Proof.
    intros (temps & ms & fnv & args & -> & H2 & H3 & -> & _) H. rewrite H3 in H.
    rewrite !app_length in H. simpl in H. rewrite app_length, !rev_length in H. lia.
  Qed.

  Lemma esim_nt n e ctx st0 st1 c f pc en stk Sc base :
    esim n e ->
    compile_expr e ctx false st0 = Some (st1, c, f) -> code_at pc c -> placed f ->
    wfx Sc e -> shape (ctx_rec ctx) false e = true ->
    erel Sc en (c_locals st0) (c_sz st0) stk ->
    length stk = c_sz st0 + base -> c_sz st0 + need e <= K ->
    dsim base (eval_d n (f_rec ctx) false en e) n pc stk
        (fun v pc1 st1 => pc1 = pc + size c /\ exists mv, vrel v mv /\ st1 = mv :: stk).
  Proof.
    intros H Hc Ha Hp Hw Hs He Hb HK. eapply dsim_post.
    - eapply (H ctx false st0 st1 c f pc en stk Sc 0 []); eauto. discriminate.
    - intros v pc1 s1 (mv & Hv & [[-> ->]|[? _]]) HL; [|discriminate].
      apply after_0; eauto.
  Qed.

  Lemma args_sim n ctx args :
    Forall (esim n) args -> forall st0 st1 c f pc en stk Sc base,
      seqs (map (fun a => compile_expr a ctx false) args) st0 = Some (st1, c, f) ->
      code_at pc c -> placed f -> Forall (wfx Sc) args ->
      forallb (shape (ctx_rec ctx) false) args = true ->
      erel Sc en (c_locals st0) (c_sz st0) stk ->
      length stk = c_sz st0 + base -> c_sz st0 + list_sum (map need args) <= K ->
      dsim base (dmapM (eval_d n (f_rec ctx) false en) args) n pc stk
          (fun vs pc1 s1 => pc1 = pc + size c /\ exists ms, Forall2 vrel vs ms /\ length ms = length args /\ s1 = rev ms ++ stk).
  Proof.
    induction 1 as [|a args Ha _ IH]; intros st0 st1 c f pc en stk Sc base Hc Hat Hp Hw Hsh He Hb HK.
    - simpl in Hc. unfold skip in Hc; injection Hc as <- <- <-.
      simpl dmapM. eapply dsim_ok; [constructor; simpl in HK; lia|]. split; [unfold size; simpl; lia|]. exists []; auto.
    - simpl in Hc. inv_seq Hc as sa ca fa cb fb Hca Hcb.
      apply code_at_app in Hat as [Hat1 Hat2]. apply placed_app in Hp as [Hp1 Hp2].
      inversion Hw as [|? ? Hwa Hw']; subst. simpl in Hsh; apply andb_prop in Hsh as [Hs1 Hs2].
      cstat Hca Hs1 L HZ. simpl map in HK. simpl list_sum in HK. pose proof (need_pos a) as Hpos.
      simpl dmapM. eapply dsim_bind.
      + eapply esim_nt; eauto; lia.
      + cbv beta. intros v pc1 s1 (-> & mv & Hv & ->). eapply dsim_bind.
        * eapply IH; eauto.
          -- apply (@erel_ext Sc en en (c_locals st0) (c_locals sa) (c_sz st0) (c_sz sa) stk [mv]); auto.
             ++ intros x Hx; apply L. destruct Hwa as (_ & _ & Hd). intros Hx'; apply (Hd x); auto.
             ++ simpl; lia.
          -- simpl; lia.
          -- lia.
        * cbv beta. intros vs pc2 s2 (-> & ms & Hvs & Hlm & ->). eapply dsim_ok.
          { constructor. rewrite app_length, rev_length. simpl. pose proof (need_length args). lia. }
          split; [rewrite size_app; lia|]. exists (mv :: ms). split; auto. simpl. split; auto.
          rewrite <- app_assoc; auto.
  Qed.

  (** *** Variables *)
  Lemma picks_sim Sc en caps : incl caps Sc -> forall st0 st1 c f pc stk base,
    seqs (map pick_var caps) st0 = Some (st1, c, f) -> code_at pc c ->
    erel Sc en (c_locals st0) (c_sz st0) stk ->
    length stk = c_sz st0 + base -> c_sz st0 + length caps <= K ->
    exists vs ms k, map (fun x => lookup x en) caps = map Some vs /\ Forall2 vrel vs ms /\
      lsteps base k pc stk (pc + size c) (rev ms ++ stk).
  Proof.
    induction caps as [|x caps IH]; intros Hi st0 st1 c f pc stk base Hc Hat He Hb HK.
    - simpl in Hc. unfold skip in Hc. injection Hc as <- <- <-. exists [], [], 0. repeat split; auto.
      unfold size; simpl. rewrite Nat.add_0_r. constructor. lia.
    - simpl in Hc. inv_seq Hc as sa ca fa cb fb Ha Hb1.
      apply pick_inv in Ha as (a & Hl & Hlt & -> & -> & ->).
      destruct (He x) as (v & a' & mv & H1 & H2 & H3 & H4 & H5); [apply Hi; left; auto|].
      assert (a' = a) by congruence; subst a'.
      apply code_at_app in Hat as [Hat1 Hat2]. simpl in HK.
      destruct (IH (fun y Hy => Hi y (or_intror Hy)) _ _ _ _ _ (mv :: stk) base Hb1 Hat2) as (vs & ms & k & E1 & E2 & E3).
      { apply (@erel_ext Sc en en (c_locals st0) (c_locals st0) (c_sz st0) _ stk [mv]); auto. simpl; lia. }
      { simpl. lia. }
      { simpl. lia. }
      exists (v :: vs), (mv :: ms), (S k). repeat split; auto.
      + simpl; congruence.
      + econstructor; [lia| |].
        * unfold step. rewrite (at_op Hat1 eq_refl).
          replace (c_sz st0 - a - 1) with (c_sz st0 - 1 - a) by lia. rewrite H4. reflexivity.
        * rewrite size_app. simpl rev. rewrite <- app_assoc. simpl app.
          replace (S pc) with (pc + size [IPick (c_sz st0 - a - 1)]) by (unfold size; simpl; lia).
          rewrite Nat.add_assoc. exact E3.
  Qed.

  (** *** Closures *)
  Lemma closure_sim Sc en entry tl pn rec caps body st0 st1 c1 f1 st2 c2 f2 st3 c3 f3 pc stk base :
    compile_function entry tl pn rec caps (fun c => compile_expr body c true) st0 = Some (st1, c1, f1) ->
    seqs (map pick_var caps) st1 = Some (st2, c2, f2) ->
    emit (IClosure entry (length caps)) (length caps) 1 st2 = Some (st3, c3, f3) ->
    code_at pc (c1 ++ c2 ++ c3) -> placed f1 ->
    incl caps Sc ->
    NoDup (pn ++ match rec with Some n => [n] | None => [] end ++ caps) ->
    wfx (pn ++ match rec with Some n => [n] | None => [] end ++ caps) body ->
    shape (match rec with Some n => Some (n, length pn) | None => None end) true body = true ->
    erel Sc en (c_locals st0) (c_sz st0) stk ->
    length stk = c_sz st0 + base -> c_sz st0 + length caps + 1 <= K ->
    fun_sz pn caps + need body + 1 <= K ->
    exists k mv, lsteps base k pc stk (pc + size (c1 ++ c2 ++ c3)) (mv :: stk) /\
      vrel (VFn en rec pn body) mv.
  Proof.
    intros Hf Hpk Hem Hat Hpl Hi Hnd Hwf Hsh He Hb HK HB.
    apply compile_function_inv in Hf as (stb & bcode & bfns & Hbo & _ & -> & -> & ->).
    apply emit_inv in Hem as (_ & _ & -> & _). apply placed_app in Hpl as [Hp1 Hp2].
    destruct (Hp2 (fun_code entry tl pn caps bcode) (or_introl eq_refl)) as (addr & Haddr).
    unfold fun_code in Haddr. apply (code_at_app [ILabel entry]) in Haddr as [Hlab Hcode].
    unfold size in Hcode; simpl map in Hcode; simpl list_sum in Hcode. rewrite Nat.add_0_r in Hcode.
    apply (code_at_label Hlink Huniq) in Hlab. simpl app in Hat.
    apply code_at_app in Hat as [Hat1 Hat2].
    edestruct (@picks_sim Sc en caps Hi) with (base := base) as (vs & ms & k & E1 & E2 & E3); [exact Hpk|exact Hat1|exact He|simpl; lia|simpl; lia|].
    assert (Hlen : length caps = length ms).
    { rewrite (map_Some_length _ _ _ E1). eapply Forall2_len; eauto. }
    exists (k + 1), (MClo addr ms). split.
    - eapply bsteps_trans; [exact E3|]. apply bsteps1.
      + rewrite app_nil_l, size_app. unfold step.
        assert (Hl : link1 la (IClosure entry (length caps)) = Some [OClosure addr (length caps)]).
        { simpl. unfold la. rewrite Hlab; auto. }
        rewrite (at_op Hat2 Hl). rewrite Hlen, take_fields_rev. unfold size; simpl. f_equal; lia.
      + rewrite app_length, rev_length. lia.
      + simpl. lia.
    - eapply VRFn with (caps := caps) (tl := tl); eauto. split; auto.
      exists (c_next st0), stb, bcode, bfns. split; [exact Hcode|]. auto.
  Qed.

  Lemma fun_frame ps rec caps body cenv tl addr vs ms vargs args ret below :
    fn_ok addr tl rec ps body caps ->
    map (fun c => lookup c cenv) caps = map Some vs -> Forall2 vrel vs ms ->
    Forall2 vrel vargs args -> length args = length ps ->
    let Sc := ps ++ match rec with Some n => [n] | None => [] end ++ caps in
    let stk := rev ms ++ MInt (N.of_nat ret) :: MClo addr ms :: rev args ++ below in
    let en := call_env cenv rec ps body vargs in
    erel Sc en (fun_locals ps rec caps) (fun_sz ps caps) stk /\
    tinfo (fun_ctx tl ps rec caps) Sc en (fun_locals ps rec caps) (fun_sz ps caps) stk ret below.
  Proof.
    intros Hfn Hcap Hvs Hargs Hlen Sc stk en.
    assert (Hclo : vrel (VFn cenv rec ps body) (MClo addr ms)) by (eapply VRFn; eauto).
    assert (Hfn0 := Hfn). destruct Hfn as (_ & next & st1 & bcode & f & Hat & Hcomp & Hpl & Hnd & Hwf & Hsh).
    fold Sc in Hnd, Hwf.
    pose proof (map_Some_length _ _ _ Hcap) as Hlc. pose proof (Forall2_len Hvs) as Hlm.
    pose proof (Forall2_len Hargs) as Hla.
    assert (Hen : en = match rec with None => [] | Some n => [(n, VFn cenv (Some n) ps body)] end ++
                       rev (combine ps vargs) ++ cenv).
    { unfold en, call_env. rewrite add_all_eq by lia. destruct rec; auto. }
    unfold Sc in Hnd. rewrite !NoDup_app_iff in Hnd. destruct Hnd as (Hnps & (Hnr & Hnc & Hd2) & Hd1).
    assert (Hpar : forall i x, nth_error ps i = Some x -> lookup x (fun_locals ps rec caps) = Some i).
    { intros i x Hx. assert (Hxi := nth_error_In _ _ Hx). unfold fun_locals.
      rewrite lookup_rev_combine_notin; [|rewrite seq_length; auto|].
      2:{ intros Hc. apply (Hd1 x Hxi). apply in_or_app; auto. }
      assert (Hil : i < length ps) by (eapply nth_lt; eauto).
      assert (Hq : lookup x (rev (combine ps (List.seq 0 (length ps)))) = Some i).
      { rewrite <- (app_nil_r (rev _)). eapply lookup_rev_combine with (i := i); eauto.
        - rewrite seq_length; auto.
        - rewrite <- (Nat.add_0_l i) at 2. apply nth_error_nth' with (d := 0) in Hil as E0.
          rewrite nth_error_nth' with (d := 0) by (rewrite seq_length; auto).
          rewrite seq_nth by auto. auto. }
      destruct rec as [n|]; simpl; auto. destruct (Nat.eqb_spec x n); auto.
      subst. exfalso. apply (Hd1 n Hxi). simpl; auto. }
    split.
    - intros x Hx. unfold Sc in Hx. rewrite !in_app_iff in Hx.
      destruct (in_dec Nat.eq_dec x ps) as [Hxp|Hxp]; [|destruct Hx as [Hx|[Hx|Hx]]; [tauto| |]].
      + apply In_nth_error in Hxp as [i Hi]. assert (Hil : i < length ps) by (eapply nth_lt; eauto).
        destruct (nth_error_some vargs (i:=i)) as [v Hv]; [lia|].
        destruct (nth_error_some args (i:=i)) as [mv Hmv]; [lia|].
        exists v, i, mv. split; [|split; [apply Hpar; auto|split; [unfold fun_sz; lia|split]]].
        * rewrite Hen. rewrite lookup_app_r.
          -- eapply lookup_rev_combine; eauto; lia.
          -- destruct rec as [n|]; simpl; auto. intros [->|[]]. apply (Hd1 x); simpl; auto.
             eapply nth_error_In; eauto.
        * unfold stk, fun_sz. rewrite nth_error_app2 by (rewrite rev_length; lia). rewrite rev_length.
          replace (length ps + 2 + length caps - 1 - i - length ms) with (S (S (length ps - 1 - i))) by lia.
          simpl. rewrite nth_error_app1 by (rewrite rev_length; lia).
          rewrite nth_error_rev by lia. rewrite <- Hmv. f_equal. lia.
        * eapply Forall2_nth; eauto.
      + destruct rec as [n|]; [|destruct Hx]. destruct Hx as [->|[]].
        exists (VFn cenv (Some x) ps body), (length ps), (MClo addr ms).
        split; [|split; [|split; [unfold fun_sz; lia|split; auto]]].
        * rewrite Hen. simpl. rewrite Nat.eqb_refl; auto.
        * unfold fun_locals. rewrite lookup_rev_combine_notin.
          -- simpl. rewrite Nat.eqb_refl; auto.
          -- rewrite seq_length; auto.
          -- apply Hd2; simpl; auto.
        * unfold stk, fun_sz. rewrite nth_error_app2 by (rewrite rev_length; lia). rewrite rev_length.
          replace (length ps + 2 + length caps - 1 - length ps - length ms) with 1 by lia. auto.
      + apply In_nth_error in Hx as [i Hi]. assert (Hil : i < length caps) by (eapply nth_lt; eauto).
        destruct (nth_error_some vs (i:=i)) as [v Hv]; [lia|].
        destruct (nth_error_some ms (i:=i)) as [mv Hmv]; [lia|].
        exists v, (length ps + 2 + i), mv. split; [|split; [|split; [unfold fun_sz; lia|split]]].
        * rewrite Hen. rewrite lookup_app_r.
          -- rewrite lookup_rev_combine_notin; auto; [|lia].
             assert (Hm := map_nth_error (fun c => lookup c cenv) _ _ Hi). rewrite Hcap in Hm.
             rewrite (map_nth_error Some _ _ Hv) in Hm. congruence.
          -- destruct rec as [n|]; simpl; auto. intros [->|[]]. apply (Hd2 x); simpl; auto.
             eapply nth_error_In; eauto.
        * unfold fun_locals. eapply lookup_rev_combine with (i := i); eauto.
          -- rewrite seq_length; auto.
          -- rewrite nth_error_nth' with (d := 0) by (rewrite seq_length; auto). rewrite seq_nth by auto. auto.
        * unfold stk, fun_sz. rewrite nth_error_app1 by (rewrite rev_length; lia).
          rewrite nth_error_rev by lia. rewrite <- Hmv. f_equal. lia.
        * exact (Forall2_nth _ Hvs Hv Hmv).
    - exists [], ms, (MClo addr ms), args. unfold fun_ctx; cbn [f_params f_entry_sz f_rec f_tail].
      repeat split; auto.
      + unfold fun_sz; lia.
      + intros x Hx; apply in_or_app; auto.
      + destruct rec as [n|]; auto. split; [apply in_or_app; right; simpl; auto|].
        exists cenv, body, caps, addr, vs. split; [rewrite Hen; simpl; rewrite Nat.eqb_refl; auto|].
        split; auto.
  Qed.


  Lemma body_sim n ps rec caps body cenv tl addr vs ms vargs args ret below :
    esim n body ->
    fn_ok addr tl rec ps body caps ->
    map (fun c => lookup c cenv) caps = map Some vs -> Forall2 vrel vs ms ->
    Forall2 vrel vargs args -> length args = length ps ->
    dsim (length below) (eval_d n rec true (call_env cenv rec ps body vargs) body) n (addr + isize (IEnter (length caps)))
        (rev ms ++ MInt (N.of_nat ret) :: MClo addr ms :: rev args ++ below)
        (fun v pc' st' => pc' = ret /\ exists mv, vrel v mv /\ st' = mv :: below).
  Proof.
    intros IH Hfn Hcap Hvs Hargs Hlen.
    destruct (@fun_frame ps rec caps body cenv tl addr vs ms vargs args ret below) as [He Ht]; auto.
    pose proof (map_Some_length _ _ _ Hcap) as Hlc. pose proof (Forall2_len Hvs) as Hlm.
    destruct Hfn as (HB & next & st1 & bcode & f & Hat & Hcomp & Hpl & Hnd & Hwf & Hsh).
    apply code_at_app in Hat as [Hat1 Hat2]. apply code_at_app in Hat2 as [Hat2 Hat3].
    assert (Hsz : size [IEnter (length caps); ILabel tl] = isize (IEnter (length caps))) by (unfold size; simpl; lia).
    rewrite Hsz in *.
    assert (Hst : length (rev ms ++ MInt (N.of_nat ret) :: MClo addr ms :: rev args ++ below) = fun_sz ps caps + length below).
    { rewrite app_length. simpl. rewrite app_length, !rev_length. unfold fun_sz. lia. }
    eapply dsim_post.
    - eapply (IH (fun_ctx tl ps rec caps) true (fun_st ps rec caps next)); eauto. simpl. lia.
    - cbv beta. intros v pc1 s1 (mv & Hv & [[-> ->]|(_ & -> & ->)]) HL.
      + eapply after_l; [|eauto]. apply bsteps1.
        * unfold step.
          rewrite (at_op Hat3 eq_refl). replace (length caps) with (length (rev ms)) by (rewrite rev_length; lia).
          rewrite popn_app. replace (length ps) with (length (rev args)) by (rewrite rev_length; lia).
          rewrite popn_app. rewrite Nat2N.id. reflexivity.
        * simpl length. rewrite Hst. lia.
        * simpl. unfold fun_sz in HB. lia.
      + apply after_0; eauto.
  Qed.

  (** Calling a function value: [call_d] is the call of [eval_d]. *)
  Definition enter_d (n : nat) (fv : value) (vs : list value) : dres value :=
    match fv with
    | VFn cenv rec ps body =>
      if length ps =? length vs then
        match n with
        | O => dret OutOfFuel
        | S k => eval_d k rec true (call_env cenv rec ps body vs) body
        end
      else dret Panic
    | _ => dret Panic
    end.

  Lemma call_sim n fv vargs mf args pc r stk base :
    (forall k e, k < n -> esim k e) ->
    vrel fv mf -> Forall2 vrel vargs args -> code_at pc (ICall :: r) ->
    length stk + length args + 1 <= base + K -> 
    dsim base (activation (enter_d n fv vargs)) n pc (mf :: rev args ++ stk)
        (fun v pc' st' => pc' = S pc /\ exists mv, vrel v mv /\ st' = mv :: stk).
  Proof.
    intros IH Hf Ha Hat Hb. destruct Hf; try exact I. cbn [enter_d].
    destruct (Nat.eqb_spec (length ps) (length vargs)) as [El|]; [|exact I].
    pose proof (Forall2_len Ha) as Hla. pose proof (map_Some_length _ _ _ H0) as Hlc.
    pose proof (Forall2_len H1) as Hlm.
    assert (Hfn := H). destruct H as (HB & next & st1 & bcode & f & Hcode & _).
    unfold fun_sz in HB.
    assert (Hent : exists k, lsteps (length stk) k addr (MInt (N.of_nat (S pc)) :: MClo addr ms :: rev args ++ stk)
                    (addr + isize (IEnter (length caps)))
                    (rev ms ++ MInt (N.of_nat (S pc)) :: MClo addr ms :: rev args ++ stk)).
    { apply code_at_cons in Hcode as [Hc1 _]. destruct (length caps) as [|c'] eqn:Ec.
      - destruct ms; [|simpl in *; lia]. exists 0. simpl. rewrite Nat.add_0_r. constructor.
        simpl. rewrite app_length, rev_length. lia.
      - exists 1. apply bsteps1.
        + unfold step. rewrite (at_op Hc1 eq_refl). f_equal. simpl; lia.
        + simpl. rewrite app_length, rev_length. lia.
        + rewrite app_length. simpl. rewrite app_length, !rev_length. lia. }
    destruct Hent as [ke Hent].
    set (B := lim base (S (snd (match n with O => dret OutOfFuel | S k => eval_d k rec true (call_env cenv rec ps body vargs) body end)))).
    assert (HB1 : length stk + K <= B).
    { unfold B, lim. rewrite !Nat.mul_succ_r. lia. }
    assert (H1s : bsteps B (1 + ke) pc (MClo addr ms :: rev args ++ stk) (addr + isize (IEnter (length caps)))
                    (rev ms ++ MInt (N.of_nat (S pc)) :: MClo addr ms :: rev args ++ stk)).
    { eapply bsteps_trans; [|eapply bsteps_le; [exact Hent|exact HB1]]. apply bsteps1.
      - unfold step. rewrite (at_op Hat eq_refl). auto.
      - simpl. rewrite app_length, rev_length. lia.
      - simpl. rewrite app_length, rev_length. lia. }
    unfold dsim, activation. cbn [fst snd]. fold B.
    destruct n as [|n].
    - simpl. eexists _, _, _; split; [|exact H1s]; lia.
    - apply sim_le with (n := (1 + ke) + n); [lia|]. eapply sim_pre; [exact H1s|].
      eapply sim_B; [|eapply body_sim; eauto]; [|congruence].
      unfold B. apply lim_S. lia.
  Qed.

  (** *** Self tail calls *)
  Lemma sets_sim ps : forall newp oldp mid below st0 st1 c f pc B,
    (forall i p, nth_error ps i = Some p -> lookup p (c_locals st0) = Some i) ->
    length newp = length ps -> length oldp = length ps ->
    c_sz st0 = length newp + length mid + length oldp ->
    seqs (map set_var (rev ps)) st0 = Some (st1, c, f) -> code_at pc c ->
    length newp + length mid + length oldp + length below <= B ->
    exists k, bsteps B k pc (rev newp ++ mid ++ rev oldp ++ below) (pc + size c) (mid ++ rev newp ++ below).
  Proof.
    induction ps as [|p ps IH] using rev_ind; intros newp oldp mid below st0 st1 c f pc B Hl Hn Ho Hsz Hc Hat HB.
    - simpl in Hc. unfold skip in Hc; injection Hc as <- <- <-.
      destruct newp; [|discriminate]. destruct oldp; [|discriminate]. exists 0. simpl. unfold size; simpl.
      rewrite Nat.add_0_r. constructor. rewrite app_length. simpl in HB. lia.
    - rewrite rev_unit in Hc. simpl in Hc. inv_seq Hc as sa ca fa cb fb Ha Hb.
      apply set_inv in Ha as (a & Hla & Hle & -> & -> & ->).
      rewrite !app_length in *. simpl in *.
      destruct newp as [|x newp _] using rev_ind; [simpl in *; lia|].
      destruct oldp as [|o oldp _] using rev_ind; [simpl in *; lia|].
      rewrite !app_length in *. simpl in *.
      rewrite (Hl (length ps) p) in Hla by (rewrite nth_error_app2 by lia; rewrite Nat.sub_diag; auto).
      injection Hla as <-.
      apply (code_at_app [_]) in Hat as [Hat1 Hat2].
      assert (Hl' : forall i q, nth_error ps i = Some q -> lookup q (c_locals st0) = Some i).
      { intros i q Hq. apply Hl. rewrite nth_error_app1; [auto|eapply nth_lt; eauto]. }
      edestruct (IH newp oldp (mid ++ [x]) below) with (B := B) as [k Hk]; [| | | |exact Hb|exact Hat2| |]; auto; try lia.
      { cbn [c_sz]; rewrite app_length; simpl; lia. }
      { rewrite app_length. simpl. lia. }
      exists (S k). rewrite !rev_unit. simpl. econstructor.
      + simpl. rewrite !app_length. simpl. rewrite app_length, !rev_length. lia.
      + unfold step. rewrite (at_op Hat1 eq_refl).
        replace (c_sz st0 - length ps - 2) with (length (rev newp ++ mid)) by (rewrite app_length, rev_length; lia).
        rewrite app_assoc. rewrite set_nth_app. reflexivity.
      + unfold size in *; simpl in *. replace (pc + S (list_sum (map isize cb))) with (pc + 1 + list_sum (map isize cb)) by lia.
        rewrite <- !app_assoc in *. simpl in *. rewrite Nat.add_1_r in Hk. rewrite Nat.add_1_r. exact Hk.
  Qed.

  Lemma tail_call_steps ctx temps ms ret clo oldargs below args st0 st1 c f pc target B :
    length oldargs = length (f_params ctx) -> length args = length (f_params ctx) ->
    f_entry_sz ctx = length oldargs + 2 + length ms ->
    (forall i p, nth_error (f_params ctx) i = Some p -> lookup p (c_locals st0) = Some i) ->
    c_sz st0 = length args + length temps + f_entry_sz ctx ->
    lookup (f_tail ctx) la = Some target ->
    tail_call ctx st0 = Some (st1, c, f) -> code_at pc c ->
    c_sz st0 + length below <= B ->
    exists k, 0 < k /\ bsteps B k pc (rev args ++ temps ++ rev ms ++ ret :: clo :: rev oldargs ++ below)
                       target (rev ms ++ ret :: clo :: rev args ++ below).
  Proof.
    intros Hol Hal Hes Hlk Hsz0 Hlab Htc Hat HB.
    apply tail_call_inv in Htc as (st & c1 & c2 & Hsets & -> & Hle & -> & -> & -> & Hle2 & ->).
    cbn [c_sz] in *.
    apply code_at_app in Hat as [Hat1 Hat2]. apply code_at_app in Hat2 as [Hat2 Hat3].
    set (mid := temps ++ rev ms ++ [ret; clo]).
    assert (Emid : length mid = length temps + length ms + 2) by (unfold mid; rewrite !app_length, rev_length; simpl; lia).
    edestruct (@sets_sim (f_params ctx) args oldargs mid below st0) with (B := B) as [k1 Hk1];
      [exact Hlk|exact Hal|exact Hol| |exact Hsets|exact Hat1| |].
    { rewrite Emid. lia. }
    { rewrite Emid. lia. }
    assert (Eto : c_sz st0 - length (f_params ctx) - f_entry_sz ctx = length temps) by lia.
    rewrite Eto in *.
    assert (HF : length (rev ms ++ ret :: clo :: rev args ++ below) <= B).
    { rewrite app_length. simpl. rewrite app_length, !rev_length. lia. }
    assert (Hpop : exists k2, bsteps B k2 (pc + size c1) (mid ++ rev args ++ below)
        (pc + size c1 + size (if 0 <? length temps then [IPopN (length temps)] else []))
        (rev ms ++ ret :: clo :: rev args ++ below)).
    { unfold mid. destruct temps as [|t0 temps].
      - exists 0. simpl. unfold size; simpl. rewrite Nat.add_0_r, <- app_assoc. constructor. exact HF.
      - exists 1. apply bsteps1; [| |exact HF].
        + cbn [Nat.ltb Nat.leb length] in *. unfold step. rewrite (at_op Hat2 eq_refl).
          rewrite <- !app_assoc. change (S (length temps)) with (length (t0 :: temps)). rewrite popn_app.
          unfold size; simpl. f_equal; lia.
        + fold mid. rewrite !app_length, rev_length, Emid. lia. }
    destruct Hpop as [k2 Hk2].
    assert (Hj : bsteps B 1 (pc + size c1 + size (if 0 <? length temps then [IPopN (length temps)] else []))
        (rev ms ++ ret :: clo :: rev args ++ below) target (rev ms ++ ret :: clo :: rev args ++ below)).
    { apply bsteps1; auto. unfold step. assert (E : link1 la (IJump (f_tail ctx)) = Some [OJump target]).
      { cbn [link1]. rewrite Hlab. auto. }
      rewrite (at_op Hat3 E). auto. }
    pose proof (bsteps_trans Hk1 (bsteps_trans Hk2 Hj)) as Hall.
    exists (k1 + (k2 + 1)). split; [lia|].
    replace (rev args ++ temps ++ rev ms ++ ret :: clo :: rev oldargs ++ below)
      with (rev args ++ mid ++ rev oldargs ++ below) by (unfold mid; rewrite <- !app_assoc; auto). auto.
  Qed.

  Lemma tail_call_sim n ctx Sc en l sz stk ret below vargs args st0 st1 c f pc m fv :
    (forall k e, k < n -> esim k e) ->
    tinfo ctx Sc en l sz stk ret below ->
    f_rec ctx = Some m -> lookup m en = Some fv ->
    Forall2 vrel vargs args -> length args = length (f_params ctx) ->
    (forall i p, nth_error (f_params ctx) i = Some p -> lookup p (c_locals st0) = Some i) ->
    c_sz st0 = sz + length args -> c_sz st0 <= K ->
    tail_call ctx st0 = Some (st1, c, f) -> code_at pc c ->
    dsim (length below) (enter_d n fv vargs) n pc (rev args ++ stk)
        (fun v pc' st' => pc' = ret /\ exists mv, vrel v mv /\ st' = mv :: below).
  Proof.
    intros IH (temps & ms & fnv & oldargs & -> & Hol & Hes & Hsz & _ & _ & Hrec) Hm Hfv Hargs Hal Hlk Hsz0 HK Htc Hat.
    rewrite Hm in Hrec. destruct Hrec as (_ & cenv & body & caps & addr & vs & Hl & -> & Hfn & Hcap & Hvs).
    rewrite Hl in Hfv. injection Hfv as <-.
    unfold enter_d. pose proof (Forall2_len Hargs) as Hla. rewrite Hla, Hal, Nat.eqb_refl.
    assert (Hfn' := Hfn). destruct Hfn' as (HB & next & sb & bcode & bf & Hcode & _).
    simpl app in Hcode. apply code_at_cons in Hcode as [_ Hcode]. apply code_at_cons in Hcode as [Hlab _].
    apply (code_at_label Hlink Huniq) in Hlab.
    edestruct (@tail_call_steps ctx temps ms (MInt (N.of_nat ret)) (MClo addr ms) oldargs below args)
      with (B := length below + K)
      as (k & Hk & Hall); [exact Hol|exact Hal|exact Hes|exact Hlk|lia|exact Hlab|exact Htc|exact Hat|lia|].
    destruct n as [|n].
    - exists k, (addr + isize (IEnter (length caps))), (rev ms ++ MInt (N.of_nat ret) :: MClo addr ms :: rev args ++ below).
      split; [lia|]. eapply bsteps_le; [exact Hall|apply lim_0].
    - apply dsim_le with (n := k + n); [lia|]. eapply dsim_pre; [exact Hall|].
      eapply body_sim; eauto.
  Qed.

  (** *** Matches *)
  Lemma erel_bind bs vs ms Sc en l l' sz stk :
    erel Sc en l sz stk -> Forall2 vrel vs ms -> length bs = length vs -> NoDup bs ->
    (forall x, In x bs -> ~ In x Sc) -> (forall x, In x Sc -> lookup x l' = lookup x l) ->
    erel (bs ++ Sc) (rev (combine bs vs) ++ en) (rev (combine bs (List.seq sz (length bs))) ++ l')
         (sz + length bs) (rev ms ++ stk).
  Proof.
    intros He Hv Hl Hn Hd Hll x Hx. pose proof (Forall2_len Hv) as Hlm.
    destruct (in_dec Nat.eq_dec x bs) as [Hxb|Hxb].
    - apply In_nth_error in Hxb as [i Hi]. assert (Hil : i < length bs) by (eapply nth_lt; eauto).
      destruct (nth_error_some vs (i:=i)) as [v Hv1]; [lia|].
      destruct (nth_error_some ms (i:=i)) as [mv Hm]; [lia|].
      exists v, (sz + i), mv. split; [eapply lookup_rev_combine; eauto|].
      split; [eapply lookup_rev_combine with (i := i); eauto|].
      { rewrite seq_length; auto. }
      { rewrite nth_error_nth' with (d := 0) by (rewrite seq_length; auto). rewrite seq_nth by auto. auto. }
      split; [lia|]. split; [|exact (Forall2_nth _ Hv Hv1 Hm)].
      rewrite nth_error_app1 by (rewrite rev_length; lia). rewrite nth_error_rev by lia.
      rewrite <- Hm. f_equal; lia.
    - apply in_app_or in Hx as [?|Hx]; [tauto|].
      destruct (He x Hx) as (v & a & mv & H1 & H2 & H3 & H4 & H5). exists v, a, mv.
      rewrite lookup_rev_combine_notin by (auto; lia).
      rewrite lookup_rev_combine_notin by (auto; rewrite seq_length; auto).
      rewrite Hll by auto. repeat split; auto; try lia.
      rewrite nth_error_app2 by (rewrite rev_length; lia). rewrite rev_length, <- H4. f_equal; lia.
  Qed.

  Lemma tinfo_bind ctx bs vs ms Sc en l l' sz stk ret below :
    tinfo ctx Sc en l sz stk ret below -> length bs = length vs -> length vs = length ms ->
    (forall x, In x bs -> ~ In x Sc) -> (forall x, In x Sc -> lookup x l' = lookup x l) ->
    tinfo ctx (bs ++ Sc) (rev (combine bs vs) ++ en) (rev (combine bs (List.seq sz (length bs))) ++ l')
         (sz + length bs) (rev ms ++ stk) ret below.
  Proof.
    intros Ht Hl Hm Hd Hll. eapply tinfo_ext; [exact Ht| | | |].
    - intros x Hx. apply lookup_rev_combine_notin; auto. intros H; apply (Hd x); auto.
    - intros x Hx. rewrite lookup_rev_combine_notin; [apply Hll; auto|rewrite seq_length; auto|].
      intros H; apply (Hd x); auto.
    - rewrite rev_length; lia.
    - intros x Hx; apply in_or_app; auto.
  Qed.

  Lemma swaps_sim tmp B : forall pc mv stk, code_at pc (repeat ISwapPop (length tmp)) ->
    length tmp + length stk + 1 <= B ->
    bsteps B (length tmp) pc (mv :: tmp ++ stk) (pc + size (repeat ISwapPop (length tmp))) (mv :: stk).
  Proof.
    induction tmp as [|t tmp IH]; intros pc mv stk Hat HB; simpl.
    - unfold size; simpl. rewrite Nat.add_0_r. constructor. simpl in *; lia.
    - simpl in Hat. pose proof (at_op Hat eq_refl) as Hop. apply code_at_cons in Hat as [_ Hat]. simpl in Hat.
      econstructor; [simpl in *; rewrite app_length; lia|unfold step; rewrite Hop; reflexivity|].
      replace (pc + size (ISwapPop :: repeat ISwapPop (length tmp)))
        with (S pc + size (repeat ISwapPop (length tmp))) by (unfold size; simpl; lia).
      apply IH; [rewrite Nat.add_1_r in Hat; auto|simpl in HB; lia].
  Qed.

  Lemma intr_step i vs ms v stk : intr_apply i vs = Ok v -> Forall2 vrel vs ms ->
    exists mv, vm_str i (rev ms ++ stk) = Some (mv :: stk) /\ vrel v mv.
  Proof.
    intros H HF. unfold intr_apply in H.
    destruct i; repeat (match type of H with
      | match ?x with _ => _ end = _ => is_var x; destruct x; try discriminate
      end); injection H as <-;
      repeat (match goal with HF : Forall2 _ _ _ |- _ => inversion HF; clear HF; subst end);
      repeat (match goal with HF : vrel (_ _) _ |- _ => inversion HF; clear HF; subst end);
      simpl; eexists; (split; [reflexivity|]); try constructor.
    rewrite str_len_nth. constructor.
  Qed.

  Lemma epost_next tail pc stk ret below v mv : vrel v mv -> epost tail pc stk ret below v pc (mv :: stk).
  Proof. intros H; exists mv; auto. Qed.

  (** Locals and stack seen by a later part, after [pushed] values were pushed. *)
  Lemma erel_after Sc en st0 st1 X pushed stk :
    erel Sc en (c_locals st0) (c_sz st0) stk ->
    (forall x, ~ In x X -> lookup x (c_locals st1) = lookup x (c_locals st0)) ->
    (forall x, In x X -> ~ In x Sc) -> c_sz st1 = c_sz st0 + length pushed ->
    erel Sc en (c_locals st1) (c_sz st1) (pushed ++ stk).
  Proof.
    intros He Hl Hd Hz. eapply erel_ext; eauto. intros x Hx; apply Hl. intros Hx'; apply (Hd x); auto.
  Qed.
  Lemma tinfo_after ctx Sc en st0 st1 X pushed stk ret below :
    tinfo ctx Sc en (c_locals st0) (c_sz st0) stk ret below ->
    (forall x, ~ In x X -> lookup x (c_locals st1) = lookup x (c_locals st0)) ->
    (forall x, In x X -> ~ In x Sc) -> c_sz st1 = c_sz st0 + length pushed ->
    tinfo ctx Sc en (c_locals st1) (c_sz st1) (pushed ++ stk) ret below.
  Proof.
    intros He Hl Hd Hz. eapply tinfo_ext; eauto using incl_refl. intros x Hx; apply Hl. intros Hx'; apply (Hd x); auto.
  Qed.
  Arguments erel_after {Sc en st0 st1} X pushed {stk}.
  Arguments tinfo_after {ctx Sc en st0 st1} X pushed {stk ret below}.
  Lemma erel_st Sc en st st' stk :
    erel Sc en (c_locals st) (c_sz st) stk -> c_locals st' = c_locals st -> c_sz st' = c_sz st ->
    erel Sc en (c_locals st') (c_sz st') stk.
  Proof. intros H -> ->; auto. Qed.


  Lemma intr_d_args go i xs : length xs = intr_arity i ->
    fst (intr_d go i xs) = Panic \/ intr_d go i xs = (vs <~ dmapM go xs ;; dret (intr_apply i vs)).
  Proof.
    intros Hl. unfold intr_d.
    destruct i; simpl in Hl;
      (destruct xs as [|x0 xs]; [discriminate|]); unfold dbind; simpl;
      (destruct (go x0) as [v0 d0]; destruct v0 as [v0| | |]; simpl; auto);
      (destruct v0; simpl; auto);
      (destruct xs as [|x1 xs]; try discriminate; simpl; auto);
      try (destruct (go x1) as [v1 d1]; destruct v1 as [v1| | |]; simpl; auto);
      try (destruct v1; simpl; auto);
      try (destruct xs as [|x2 xs]; try discriminate; simpl; auto);
      try (destruct (go x2) as [v2 d2]; destruct v2 as [v2| | |]; simpl; auto);
      try (destruct v2; simpl; auto);
      try (destruct xs as [|x3 xs]; try discriminate; simpl; auto);
      right; f_equal; lia.
  Qed.

  Lemma self_call_eq ctx tail f : self_call (f_rec ctx) tail f = is_self_tail ctx tail f.
  Proof. unfold self_call, is_self_tail. destruct f; auto. destruct (f_rec ctx); auto. destruct tail; auto. Qed.

  Ltac szs := repeat (first [rewrite size_app | rewrite size_cons | rewrite size_nil]); cbn [isize]; try lia.
  Ltac ht := simpl length in *; rewrite ?app_length, ?rev_length in *; simpl length in *; lia.

  Theorem esim_all n : (forall k e, k < n -> esim k e) -> forall e, esim n e.
  Proof.
    intros IHn e. induction e using expr_ind_rec;
      intros ctx tail st0 st1 cc ff pc en stk Sc ret below base Hcm Hat Hpl Hwf Hsh He Hb HK Ht; cbn [need] in HK.
    - (* Bool *)
      apply emit_inv in Hcm as (_ & -> & -> & ->). rewrite eval_d_unfold. simpl eval_d_eqn.
      eapply dsim_ok; [apply bsteps1; [unfold step; rewrite (at_op Hat eq_refl); reflexivity|ht|ht]|].
      replace (pc + size _) with (S pc) by szs. apply epost_next; constructor.
    - apply emit_inv in Hcm as (_ & -> & -> & ->). rewrite eval_d_unfold. simpl eval_d_eqn.
      eapply dsim_ok; [apply bsteps1; [unfold step; rewrite (at_op Hat eq_refl); reflexivity|ht|ht]|].
      replace (pc + size _) with (S pc) by szs. apply epost_next; constructor.
    - apply emit_inv in Hcm as (_ & -> & -> & ->). rewrite eval_d_unfold. simpl eval_d_eqn.
      eapply dsim_ok; [apply bsteps1; [unfold step; rewrite (at_op Hat eq_refl); reflexivity|ht|ht]|].
      replace (pc + size _) with (S pc) by szs. apply epost_next; constructor.
    - (* Name *)
      apply pick_inv in Hcm as (a & Hl & Hlt & -> & -> & ->). rewrite eval_d_unfold. simpl eval_d_eqn.
      destruct Hwf as (Hs & _). simpl in Hs. apply mem_In in Hs.
      destruct (He n0 Hs) as (v & a' & mv & H1 & H2 & H3 & H4 & H5).
      assert (a' = a) by congruence; subst a'. rewrite H1.
      eapply dsim_ok; [apply bsteps1; [unfold step; rewrite (at_op Hat eq_refl)| |]|].
      + replace (c_sz st0 - a - 1) with (c_sz st0 - 1 - a) by lia. rewrite H4. reflexivity.
      + ht.
      + ht.
      + replace (pc + size _) with (S pc) by szs. apply epost_next; auto.
    - (* Call *)
      cbn [compile_expr] in Hcm. simpl in Hsh. apply andb_prop in Hsh as [Hsh Hk]. apply andb_prop in Hsh as [Hf Ha].
      inv_seq Hcm as s1 c1 f1 cr1 fr1 E E1. apply wfx_call in Hwf as (Wf & Wa & Wd).
      apply code_at_app in Hat as [Hat1 Hat2]. apply placed_app in Hpl as [Hp1 Hp2].
      destruct (args_after _ _ _ Ha E) as [L1 Z1].
      pose proof (need_length args) as Hnl. pose proof (need_pos e) as Hnp.
      rewrite eval_d_unfold. cbn [eval_d_eqn].
      eapply dsim_bind; [eapply args_sim; eauto; lia|]. cbv beta. intros vs pc1 q1 (-> & ms & Hvs & Hlms & ->).
      assert (Z1' : c_sz s1 = c_sz st0 + length (rev ms)) by (rewrite rev_length; lia).
      assert (He1 := erel_after _ _ He L1 Wd Z1').
      change (fun fv : value => match fv with
        | VFn cenv rec ps body =>
          if length ps =? length vs then
            let r := match n with O => dret OutOfFuel | S k => eval_d k rec true (call_env cenv rec ps body vs) body end in
            if self_call (f_rec ctx) tail e then r else activation r
          else dret Panic
        | _ => dret Panic end) with (fun fv : value => match fv with
        | VFn cenv rec ps body =>
          if length ps =? length vs then
            if self_call (f_rec ctx) tail e
            then match n with O => dret OutOfFuel | S k => eval_d k rec true (call_env cenv rec ps body vs) body end
            else activation (match n with O => dret OutOfFuel | S k => eval_d k rec true (call_env cenv rec ps body vs) body end)
          else dret Panic
        | _ => dret Panic end).
      rewrite self_call_eq.
      destruct (is_self_tail ctx tail e) eqn:Et.
      + apply is_self_tail_inv in Et as (m & -> & -> & Hr). specialize (Ht eq_refl).
        unfold ctx_rec in Hk; rewrite Hr in Hk. cbn in Hk. rewrite Nat.eqb_refl in Hk. apply Nat.eqb_eq in Hk.
        rewrite (eval_d_unfold n _ _ _ (EName m)). simpl eval_d_eqn. destruct (lookup m en) as [fv|] eqn:Em; [|exact I].
        rewrite dbind_ret. pose proof (@tinfo_base _ _ _ _ _ _ _ _ _ Ht Hb) as Hbb. subst base.
        fold (enter_d n fv vs).
        eapply dsim_post.
        * eapply tail_call_sim; eauto; try lia.
          { intros i p Hp. destruct Ht as (? & ? & ? & ? & _ & _ & _ & _ & Hlk & Hin & _).
            rewrite L1; [apply Hlk; auto|]. intros Hx. apply (Wd p Hx). apply Hin. eapply nth_error_In; eauto. }
        * cbv beta. intros v pc2 q2 (-> & mv & Hv & ->) HL. apply after_0; auto. exists mv; auto.
      + inv_seq E1 as s2 c2 f2 cr2 fr2 E2 E3. apply emit_inv in E3 as (_ & -> & -> & ->).
        apply code_at_app in Hat2 as [Hat2 Hat3]. apply placed_app in Hp2 as [Hp2 _].
        eapply dsim_bind; [eapply (@esim_nt n e) with (base := base); eauto; [ht|lia]|].
        cbv beta. intros fv pc2 q2 (-> & mf & Hfv & ->).
        assert (Hact : dsim base (activation (enter_d n fv vs)) n (pc + size c1 + size c2) (mf :: rev ms ++ stk)
                         (epost tail (pc + size (c1 ++ c2 ++ [ICall])) stk ret below)).
        { eapply dsim_post; [eapply call_sim; eauto; ht|]. cbv beta. intros v pc3 q3 (-> & mv & Hv & ->) HL.
          apply after_0; auto.
          replace (pc + size (c1 ++ c2 ++ [ICall])) with (S (pc + size c1 + size c2)) by szs. apply epost_next; auto. }
        destruct fv as [| | | |cenv rec ps body]; try exact I. unfold enter_d in Hact.
        destruct (length ps =? length vs); [exact Hact|exact I].
    - (* If *)
      cbn [compile_expr] in Hcm. simpl in Hsh. apply andb_prop in Hsh as [Hsh Hs3]. apply andb_prop in Hsh as [Hs1 Hs2].
      apply wfx_if in Hwf as (W1 & W2 & W3).
      pose proof (need_pos e1) as Np1. pose proof (need_pos e2) as Np2. pose proof (need_pos e3) as Np3.
      inv_seq Hcm as s1 c1 f1 cr1 fr1 E E1. cstat E Hs1 L1 Z1. unfold fresh in E1. cs.
      inv_seq E1 as s2 c2 f2 cr2 fr2 F E2. apply emit_inv in F as (_ & -> & -> & ->). cs.
      inv_seq E2 as s3 c3 f3 cr3 fr3 G E3. cstat G Hs2 L2 Z2. cs.
      inv_seq E3 as s4 c4 f4 cr4 fr4 F E4. apply emit_inv in F as (_ & -> & -> & ->). cs.
      inv_seq E4 as s5 c5 f5 cr5 fr5 F E5. apply emit_inv in F as (_ & -> & -> & ->). cs.
      inv_seq E5 as s6 c6 f6 cr6 fr6 F E6. apply chg_inv in F as (_ & -> & -> & ->). cs.
      inv_seq E6 as s7 c7 f7 cr7 fr7 H E7. cstat H Hs3 L3 Z3. cs.
      apply emit_inv in E7 as (_ & -> & -> & ->). cs.
      cbn [app] in Hpl, Hat |- *.
      apply placed_app in Hpl as [Hp1 Hpl]. apply placed_app in Hpl as [Hp2 Hpl]. rewrite app_nil_r in Hpl.
      apply code_at_app in Hat as [Hat1 Hat]. assert (Hatj := Hat). apply code_at_cons in Hat as [_ Hat].
      apply code_at_app in Hat as [Hat2 Hat]. assert (Hatk := Hat). apply code_at_cons in Hat as [_ Hat].
      apply code_at_cons in Hat as [Hlab Hat]. apply code_at_app in Hat as [Hat3 Hend].
      apply (code_at_label Hlink Huniq) in Hlab. apply (code_at_label Hlink Huniq) in Hend. cbn [isize] in *.
      rewrite eval_d_unfold. cbn [eval_d_eqn].
      eapply dsim_bind; [eapply esim_nt; eauto; lia|]. cbv beta. intros v pc1 q1 (-> & mv & Hv & ->).
      destruct v; cbn [into_bool]; try exact I. rewrite dbind_ret. inversion Hv; subst.
      assert (D1 : forall x, In x (binders e1) -> ~ In x Sc) by apply W1.
      assert (D2 : forall x, In x (binders e2) -> ~ In x Sc) by apply W2.
      assert (El : link1 la (IJumpIfFalse (c_next s1)) = Some [OJumpIfFalse (pc + size c1 + 1 + size c3 + 1)]).
      { cbn [link1]. unfold la. rewrite Hlab. auto. }
      assert (Ej : link1 la (IJump (S (c_next s1))) = Some [OJump (pc + size c1 + 1 + size c3 + 1 + 0 + size c7)]).
      { cbn [link1]. unfold la. rewrite Hend. auto. }
      destruct b.
      + eapply dsim_steps; [apply bsteps1; [unfold step; rewrite (at_op Hatj El); reflexivity|ht|ht]|].
        replace (S (pc + size c1)) with (pc + size c1 + 1) by lia.
        eapply dsim_post.
        * eapply IHe2; [exact G|exact Hat2|exact Hp2|exact W2|exact Hs2| | | |].
          -- cs. apply (erel_after (st1 := mkCst (c_sz s1 + 0 - 1) (c_locals s1) (S (S (c_next s1)))) _ [] He L1 D1). simpl; lia.
          -- cs. lia.
          -- cs. lia.
          -- intros Htl. apply (tinfo_after (st1 := mkCst (c_sz s1 + 0 - 1) (c_locals s1) (S (S (c_next s1)))) _ [] (Ht Htl) L1 D1). simpl; lia.
        * intros v pc2 q2 (mv2 & Hv2 & [[-> ->]|(Htl & -> & ->)]) HL.
          -- eapply after_l; [apply bsteps1; [unfold step; rewrite (at_op Hatk Ej); reflexivity|ht|ht]|].
             exists mv2; split; auto. left; split; auto. szs.
          -- apply after_0; auto. exists mv2; auto.
      + eapply dsim_steps; [apply bsteps1; [unfold step; rewrite (at_op Hatj El); reflexivity|ht|ht]|].
        rewrite Nat.add_0_r in Hat3.
        eapply dsim_post.
        * eapply IHe3; [exact H|exact Hat3|exact Hpl|exact W3|exact Hs3| | | |].
          -- cs. apply (erel_after (st0 := st0) (st1 := mkCst (c_sz s3 + 0 - 0 + 0 - 0 + 0 - 1) (c_locals s3) (c_next s3)) (binders e1 ++ binders e2) [] He).
             ++ intros x Hx. rewrite in_app_iff in Hx. cs. rewrite L2, L1 by tauto. auto.
             ++ intros x Hx; apply in_app_or in Hx as [Hx|Hx]; auto.
             ++ cs. simpl. lia.
          -- cs. lia.
          -- cs. lia.
          -- intros Htl. cs. apply (tinfo_after (st0 := st0) (st1 := mkCst (c_sz s3 + 0 - 0 + 0 - 0 + 0 - 1) (c_locals s3) (c_next s3)) (binders e1 ++ binders e2) [] (Ht Htl)).
             ++ intros x Hx. rewrite in_app_iff in Hx. cs. rewrite L2, L1 by tauto. auto.
             ++ intros x Hx; apply in_app_or in Hx as [Hx|Hx]; auto.
             ++ cs. simpl. lia.
        * intros v pc2 q2 (mv2 & Hv2 & [[-> ->]|(Htl & -> & ->)]) HL.
          -- apply after_0; auto. exists mv2; split; auto. left; split; auto. szs.
          -- apply after_0; auto. exists mv2; auto.
    - (* Op *)
      cbn [compile_expr] in Hcm. simpl in Hsh. apply andb_prop in Hsh as [Hs1 Hs2].
      apply wfx_op in Hwf as (W1 & W2). pose proof (need_pos e1) as Np1. pose proof (need_pos e2) as Np2.
      inv_seq Hcm as s1 c1 f1 cr1 fr1 E E1. cstat E Hs1 L1 Z1.
      inv_seq E1 as s2 c2 f2 cr2 fr2 G E2. apply emit_inv in E2 as (_ & -> & -> & ->).
      apply placed_app in Hpl as [Hp1 Hpl]. apply placed_app in Hpl as [Hp2 _].
      apply code_at_app in Hat as [Hat1 Hat]. apply code_at_app in Hat as [Hat2 Hat].
      rewrite eval_d_unfold. cbn [eval_d_eqn].
      eapply dsim_bind; [eapply esim_nt; eauto; lia|]. cbv beta. intros v pc1 q1 (-> & mv & Hv & ->).
      destruct v; cbn [into_int]; try exact I. rewrite dbind_ret. inversion Hv; subst.
      assert (Z1' : c_sz s1 = c_sz st0 + length [MInt i]) by (simpl; lia).
      assert (He1 := erel_after _ [MInt i] He L1 (proj2 (proj2 W1)) Z1'). cbn [app] in He1.
      eapply dsim_bind; [eapply esim_nt with (base := base); eauto; [ht|lia]|]. cbv beta. intros v2 pc2 q2 (-> & mv2 & Hv2 & ->).
      destruct v2; cbn [into_int]; try exact I. rewrite dbind_ret. inversion Hv2; subst.
      eapply dsim_ok; [apply bsteps1; [unfold step; rewrite (at_op Hat eq_refl); reflexivity|ht|ht]|].
      replace (pc + size (c1 ++ c2 ++ [IBin o])) with (S (pc + size c1 + size c2)) by szs.
      apply epost_next. destruct o; constructor.
    - (* Intr *)
      cbn [compile_expr] in Hcm. simpl in Hsh. apply andb_prop in Hsh as [Hk Ha]. apply Nat.eqb_eq in Hk.
      inv_seq Hcm as s1 c1 f1 cr1 fr1 E E1. apply emit_inv in E1 as (_ & -> & -> & ->).
      assert (Wa : Forall (wfx Sc) args) by (destruct Hwf as (? & ? & ?); apply wfx_args; auto).
      apply code_at_app in Hat as [Hat1 Hat2]. apply placed_app in Hpl as [Hp1 _].
      pose proof (need_length args) as Hnl.
      rewrite eval_d_unfold. cbn [eval_d_eqn].
      destruct (@intr_d_args (eval_d n (f_rec ctx) false en) i args Hk) as [Ei| ->];
        [unfold dsim; rewrite Ei; exact I|].
      eapply dsim_bind; [eapply args_sim; eauto; lia|]. cbv beta. intros vs pc1 q1 (-> & ms & Hvs & Hlms & ->).
      destruct (intr_apply i vs) as [v| | |] eqn:Ev; try exact I;
        try (exfalso; unfold intr_apply in Ev; destruct i;
             repeat (match type of Ev with match ?x with _ => _ end = _ => destruct x; try discriminate end); discriminate).
      destruct (@intr_step i vs ms v stk Ev Hvs) as (mv & Hs & Hv).
      eapply dsim_ok; [apply bsteps1; [unfold step; rewrite (at_op Hat2 eq_refl), Hs; reflexivity|ht|ht]|].
      replace (pc + size (c1 ++ [IStr i])) with (S (pc + size c1)) by szs.
      apply epost_next; auto.
    - (* Lam *)
      cbn [compile_expr] in Hcm. simpl in Hsh. unfold fresh in Hcm. cs.
      inv_seq Hcm as s1 c1 f1 cr1 fr1 E E1. inv_seq E1 as s2 c2 f2 cr2 fr2 F E2.
      assert (Hf2 := picks_sz _ _ F). destruct Hf2 as (_ & -> & _).
      apply wfx_lambda in Hwf as (Hi & Hnd & Wb).
      rewrite eval_d_unfold. cbn [eval_d_eqn]. apply placed_app in Hpl as [Hpl _].
      edestruct (@closure_sim Sc en) with (rec := @None name) (base := base) as (k & mv & Hk & Hv);
        [exact E|exact F|exact E2|exact Hat|exact Hpl|exact Hi|exact Hnd|exact Wb|exact Hsh|exact He|cs; lia|cs; lia| |].
      { unfold fun_sz. rewrite map_length. lia. }
      eapply dsim_ok; [exact Hk|]. apply epost_next; auto.
    - (* Match *)
      rewrite compile_match_eq in Hcm. simpl in Hsh. apply andb_prop in Hsh as [Hs1 Hs2].
      inv_seq Hcm as s1 c1 f1 cr1 fr1 E E1. cstat E Hs1 L1 Z1. unfold fresh, fresh_n in E1. cs.
      inv_seq E1 as s2 c2 f2 cr2 fr2 F E2. apply emit_inv in F as (_ & -> & -> & ->). cs.
      inv_seq E2 as s3 c3 f3 cr3 fr3 G E3.
      inv_seq E3 as s4 c4 f4 cr4 fr4 F E4. apply emit_inv in F as (_ & -> & -> & ->). cs.
      apply chg_inv in E4 as (_ & -> & -> & ->). cs. cbn [app] in Hpl, Hat |- *. rewrite ?app_nil_r in *.
      apply wfx_match in Hwf as (W1 & Wb & Wd). pose proof (need_pos e) as Np1.
      apply placed_app in Hpl as [Hp1 Hpl].
      apply code_at_app in Hat as [Hat1 Hat]. assert (Hatb := Hat). apply code_at_cons in Hat as [_ Hat]. cbn [isize] in Hat.
      apply code_at_app in Hat as [Hat3 Hend]. apply (code_at_label Hlink Huniq) in Hend.
      rewrite eval_d_unfold. cbn [eval_d_eqn].
      eapply dsim_bind; [eapply esim_nt; eauto; lia|]. cbv beta. intros v pc1 q1 (-> & mv & Hv & ->).
      destruct v as [| | |cn fs|]; try exact I. inversion Hv as [| | |? ? ms Hfs Hsm|]; subst.
      destruct (find_branch cn brs) as [[bs b]|] eqn:Efb; [|exact I].
      destruct (Nat.eqb_spec (length bs) (length fs)) as [Elen|]; [|exact I].
      pose proof (Forall2_len Hfs) as Hlm.
      edestruct (@brs_find full code Hlink Huniq) as (tbl & pcb & sb0 & sb1 & cb & fb & lo & H1 & H2 & H3 & H4 & H5 & H6 & H7 & H8);
        [exact Hs2|exact G|exact Hat3|exact Hpl|exact Efb|]. cs.
      pose proof (find_branch_In _ _ Efb) as Hin.
      destruct (Wb _ Hin) as (Wbb & Wbn & Wbd). cbn [fst snd] in *.
      pose proof (need_branch _ _ Hin) as Hnb. cbn [fst snd] in Hnb. pose proof (need_pos b) as Npb.
      assert (El : link1 la (IBranch (branch_table brs (List.seq (S (c_next s1)) (length brs)))) = Some [OBranch tbl]).
      { cbn [link1]. unfold la. rewrite H1. auto. }
      eapply dsim_steps; [apply bsteps1; [unfold step; rewrite (at_op Hatb El), H2; reflexivity|ht|ht]|].
      apply code_at_app in H7 as [H7 Hsw]. apply code_at_app in Hsw as [Hsw Hj].
      rewrite add_all_eq by auto.
      assert (Hz : c_sz s1 + 0 - 1 = c_sz st0) by lia. rewrite Hz in *.
      assert (Hlo : forall x, In x Sc -> lookup x lo = lookup x (c_locals st0)).
      { intros x Hx. rewrite H6; [|intros Hx'; apply (Wd x); auto]. apply L1. intros Hx'. apply (proj2 (proj2 W1) x); auto. }
      eapply dsim_post.
      + rewrite Forall_forall in H. eapply (H ((cn, bs), b) Hin); [exact H3|exact H7|exact H8|exact Wbb| | | | |]; cbn [fst snd].
        * rewrite forallb_In in Hs2. apply (Hs2 _ Hin).
        * rewrite H4, H5. eapply erel_bind; eauto.
        * rewrite H4. ht.
        * rewrite H4. lia.
        * intros Htl. rewrite H4, H5. eapply tinfo_bind; eauto.
      + intros v pc2 q2 (mv2 & Hv2 & [[-> ->]|(Htl & -> & ->)]) HL.
        * assert (Hbl : length bs = length (rev ms)) by (rewrite rev_length; lia). rewrite Hbl in Hsw.
          assert (Hsws := @swaps_sim (rev ms) (base + K) _ mv2 stk Hsw). rewrite <- Hbl in Hsws.
          assert (Ej : link1 la (IJump (c_next s1)) = Some [OJump (pc + size c1 + 1 + size c3)]).
          { cbn [link1]. unfold la. rewrite Hend. auto. }
          eapply after_l.
          { eapply bsteps_trans; [apply Hsws; lia|].
            apply bsteps1; [unfold step; rewrite (at_op Hj Ej); reflexivity|ht|ht]. }
          exists mv2; split; auto. left; split; auto. szs.
        * apply after_0; auto. exists mv2; auto.
    - (* Construct *)
      cbn [compile_expr] in Hcm. simpl in Hsh.
      inv_seq Hcm as s1 c1 f1 cr1 fr1 E E1. apply emit_inv in E1 as (_ & -> & -> & ->).
      assert (Wa : Forall (wfx Sc) fs) by (destruct Hwf as (? & ? & ?); apply wfx_args; auto).
      apply code_at_app in Hat as [Hat1 Hat2]. apply placed_app in Hpl as [Hp1 _].
      pose proof (need_length fs) as Hnl.
      rewrite eval_d_unfold. cbn [eval_d_eqn].
      eapply dsim_bind; [eapply args_sim; eauto; lia|]. cbv beta. intros vs pc1 q1 (-> & ms & Hvs & Hlms & ->).
      unfold mk_tagged. destruct (Nat.leb_spec (length vs) max_fields); [|exact I].
      eapply dsim_ok; [apply bsteps1; [unfold step; rewrite (at_op Hat2 eq_refl)| |]|].
      + rewrite <- Hlms, take_fields_rev. reflexivity.
      + ht.
      + ht.
      + replace (pc + size _) with (S (pc + size c1)) by szs. apply epost_next. constructor; auto.
    - (* Let *)
      cbn [compile_expr] in Hcm. simpl in Hsh. apply andb_prop in Hsh as [Hs1 Hs2].
      apply wfx_let in Hwf as (W1 & W2 & Wn). pose proof (need_pos e1) as Np1. pose proof (need_pos e2) as Np2.
      inv_seq Hcm as s1 c1 f1 cr1 fr1 E E1. cstat E Hs1 L1 Z1.
      inv_seq E1 as s2 c2 f2 cr2 fr2 F E2. apply define_inv in F as (_ & -> & -> & ->).
      inv_seq E2 as s3 c3 f3 cr3 fr3 G E3. apply emit_inv in E3 as (_ & -> & -> & ->).
      cbn [app] in Hpl, Hat |- *. rewrite ?app_nil_r in *.
      apply placed_app in Hpl as [Hp1 Hpl].
      apply code_at_app in Hat as [Hat1 Hat]. apply code_at_app in Hat as [Hat2 Hat].
      rewrite eval_d_unfold. cbn [eval_d_eqn].
      eapply dsim_bind; [eapply esim_nt; eauto; lia|]. cbv beta. intros v pc1 q1 (-> & mv & Hv & ->).
      assert (Hll : forall x, In x Sc -> lookup x (c_locals s1) = lookup x (c_locals st0)).
      { intros x Hx; apply L1. intros Hx'; apply (proj2 (proj2 W1) x); auto. }
      eapply dsim_post.
      + eapply IHe2 with (base := base); [exact G|exact Hat2|exact Hpl|exact W2|exact Hs2| | | |]; cs.
        * rewrite Z1. replace (S (c_sz st0) - 1) with (c_sz st0) by lia.
          replace (S (c_sz st0)) with (c_sz st0 + 1) by lia.
          apply erel_add; auto. apply (@erel_ext Sc en en (c_locals st0) (c_locals s1) (c_sz st0) (c_sz st0) stk []); auto.
        * ht.
        * lia.
        * intros Htl. apply (@tinfo_ext ctx Sc (n0 :: Sc) en _ (c_locals st0) _ (c_sz st0) _ stk [mv]); auto.
          -- intros x Hx. simpl. destruct (Nat.eqb_spec x n0); [subst; tauto|auto].
          -- intros x Hx. simpl. destruct (Nat.eqb_spec x n0); [subst; tauto|auto].
          -- simpl; lia.
          -- intros x Hx; right; auto.
      + intros v2 pc2 q2 (mv2 & Hv2 & [[-> ->]|(Htl & -> & ->)]) HL.
        * eapply after_l; [apply bsteps1; [unfold step; rewrite (at_op Hat eq_refl); reflexivity|ht|ht]|].
          exists mv2; split; auto. left; split; auto. szs.
        * apply after_0; auto. exists mv2; auto.
    - (* LetRec *)
      cbn [compile_expr] in Hcm. simpl in Hsh. destruct (strip_pis e1) as [| | | | | | | |ps b| | | | | | |] eqn:Es; try discriminate.
      apply andb_prop in Hsh as [Hs1 Hs2]. unfold fresh in Hcm. cs.
      destruct (wfx_letrec Hwf Es) as (Hi & Hnd & Wb & W2 & Wn).
      assert (Hn1 : need e1 = need (ELam ps b)) by (rewrite <- Es, need_strip; auto). cbn [need] in Hn1.
      pose proof (@filter_length_le _ (fun c : name => negb (Nat.eqb c n0)) (free_variables (ELetRec n0 t e1 e2))) as Hfl.
      set (caps := filter _ _) in *.
      inv_seq Hcm as s1 c1 f1 cr1 fr1 E E1. assert (Ef := E). apply compile_function_inv in Ef as (sb & bc & bf & _ & _ & Es1 & Ec1 & Ef1).
      inv_seq E1 as s2 c2 f2 cr2 fr2 F E2. assert (Hf2 := picks_sz _ _ F). destruct Hf2 as (Hz2 & -> & Hl2 & Hn2).
      inv_seq E2 as s3 c3 f3 cr3 fr3 G E3. assert (Gi := G). apply emit_inv in Gi as (_ & Es3 & Ec3 & ->).
      inv_seq E3 as s4 c4 f4 cr4 fr4 KK E4. apply define_inv in KK as (_ & -> & -> & ->).
      inv_seq E4 as s5 c5 f5 cr5 fr5 M E5. apply emit_inv in E5 as (_ & -> & -> & ->). cs.
      cbn [app] in Hpl |- *. apply placed_app in Hpl as [Hp1 Hpl]. rewrite app_nil_r in Hpl.
      cbn [app] in Hat.
      replace (c1 ++ c2 ++ c3 ++ c5 ++ [ISwapPop]) with ((c1 ++ c2 ++ c3) ++ c5 ++ [ISwapPop]) in Hat |- *
        by (rewrite <- !app_assoc; auto).
      apply code_at_app in Hat as [Hat1 Hat]. apply code_at_app in Hat as [Hat2 Hat].
      rewrite eval_d_unfold. cbn [eval_d_eqn]. rewrite Es.
      edestruct (@closure_sim Sc en) with (rec := Some n0) (base := base) as (k & mv & Hk & Hv);
        [exact E|exact F|exact G|exact Hat1|exact Hp1|exact Hi|exact Hnd|exact Wb| |exact He|cs; lia|cs; lia| |].
      { rewrite map_length. exact Hs1. }
      { unfold fun_sz. rewrite map_length. lia. }
      eapply dsim_steps; [exact Hk|].
      assert (Hzz : c_sz s3 = S (c_sz st0)) by (subst s3 s1; cs; lia).
      assert (Hll : c_locals s3 = c_locals st0) by (subst s3 s1; cs; congruence).
      eapply dsim_post.
      + eapply IHe2 with (base := base); [exact M|exact Hat2|exact Hpl|exact W2|exact Hs2| | | |]; cs; rewrite Hzz, ?Hll;
          replace (S (c_sz st0) - 1) with (c_sz st0) by lia;
          replace (S (c_sz st0)) with (c_sz st0 + 1) by lia.
        * apply erel_add; auto.
        * ht.
        * lia.
        * intros Htl. apply (@tinfo_ext ctx Sc (n0 :: Sc) en _ (c_locals st0) _ (c_sz st0) _ stk [mv]); auto.
          -- intros x Hx. simpl. destruct (Nat.eqb_spec x n0); [subst; tauto|auto].
          -- intros x Hx. simpl. destruct (Nat.eqb_spec x n0); [subst; tauto|auto].
          -- intros x Hx; right; auto.
      + intros v2 pc2 q2 (mv2 & Hv2 & [[-> ->]|(Htl & -> & ->)]) HL.
        * eapply after_l; [apply bsteps1; [unfold step; rewrite (at_op Hat eq_refl); reflexivity|ht|ht]|].
          exists mv2; split; auto. left; split; auto. szs.
        * apply after_0; auto. exists mv2; auto.
    - rewrite eval_d_unfold. cbn [eval_d_eqn]. eapply IHe; eauto.
    - rewrite eval_d_unfold. cbn [eval_d_eqn]. eapply IHe; eauto.
    - (* Trap *)
      apply emit_inv in Hcm as (_ & -> & -> & ->). rewrite eval_d_unfold. simpl eval_d_eqn.
      exists 0, pc, stk. split; [constructor; pose proof (lim_0 base 0); cbn [snd dret]; lia|].
      unfold step. rewrite (at_op Hat eq_refl). auto.
  Qed.

  Theorem esim_holds n e : esim n e.
  Proof.
    revert e. induction n as [n IH] using lt_wf_ind. intros e. apply esim_all. auto.
  Qed.
End Sim.
