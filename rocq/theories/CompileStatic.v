(** Static facts about the output of the compiler model: stack-size bookkeeping, labels. *)
From Verif Require Export Wf.
Set Implicit Arguments.

Lemma mem_In x l : mem x l = true <-> In x l.
Proof.
  unfold mem; rewrite existsb_exists; split.
  - intros (y & H & E); apply Nat.eqb_eq in E; subst; auto.
  - intros H; exists x; split; auto; apply Nat.eqb_refl.
Qed.
Lemma mem_false x l : mem x l = false <-> ~ In x l.
Proof. rewrite <- mem_In; destruct (mem x l); split; congruence. Qed.

(** ** Inversion of compiler actions *)

Lemma seq_inv a b st st2 c f : seq a b st = Some (st2, c, f) ->
  exists st1 c1 f1 c2 f2, a st = Some (st1, c1, f1) /\ b st1 = Some (st2, c2, f2) /\
                          c = c1 ++ c2 /\ f = f1 ++ f2.
Proof.
  unfold seq; destruct (a st) as [[[st1 c1] f1]|]; try discriminate.
  destruct (b st1) as [[[st2' c2] f2]|] eqn:E; try discriminate.
  intros H; injection H as <- <- <-; repeat eexists; eauto.
Qed.

Lemma chg_inv d u st st' c f : chg d u st = Some (st', c, f) ->
  d <= c_sz st + u /\ st' = mkCst (c_sz st + u - d) (c_locals st) (c_next st) /\ c = [] /\ f = [].
Proof.
  unfold chg; destruct (Nat.leb_spec d (c_sz st + u)); try discriminate.
  intros H'; injection H' as <- <- <-; auto.
Qed.

Lemma emit_inv i d u st st' c f : emit i d u st = Some (st', c, f) ->
  d <= c_sz st + u /\ st' = mkCst (c_sz st + u - d) (c_locals st) (c_next st) /\ c = [i] /\ f = [].
Proof.
  unfold emit; intros H; apply seq_inv in H as (st1 & c1 & f1 & c2 & f2 & H1 & H2 & -> & ->).
  injection H1 as <- <- <-. apply chg_inv in H2 as (? & -> & -> & ->). auto.
Qed.

Lemma define_inv x st st' c f : define_local x st = Some (st', c, f) ->
  1 <= c_sz st /\ st' = mkCst (c_sz st) ((x, c_sz st - 1) :: c_locals st) (c_next st) /\ c = [] /\ f = [].
Proof.
  unfold define_local; destruct (Nat.leb_spec 1 (c_sz st)); try discriminate.
  intros H'; injection H' as <- <- <-; auto.
Qed.

Lemma pick_inv x st st' c f : pick_var x st = Some (st', c, f) ->
  exists a, lookup x (c_locals st) = Some a /\ a < c_sz st /\
    st' = mkCst (S (c_sz st)) (c_locals st) (c_next st) /\ c = [IPick (c_sz st - a - 1)] /\ f = [].
Proof.
  unfold pick_var; destruct (lookup x (c_locals st)) as [a|]; try discriminate.
  destruct (Nat.leb_spec (a + 1) (c_sz st)); try discriminate.
  intros H'; apply emit_inv in H' as (? & -> & -> & ->). exists a; repeat split; auto; try lia.
  f_equal; lia.
Qed.

Lemma set_inv x st st' c f : set_var x st = Some (st', c, f) ->
  exists a, lookup x (c_locals st) = Some a /\ a + 2 <= c_sz st /\
    st' = mkCst (c_sz st - 1) (c_locals st) (c_next st) /\ c = [ISet (c_sz st - a - 2)] /\ f = [].
Proof.
  unfold set_var; destruct (lookup x (c_locals st)) as [a|]; try discriminate.
  destruct (Nat.leb_spec (a + 2) (c_sz st)); try discriminate.
  intros H'; apply emit_inv in H' as (? & -> & -> & ->). exists a; repeat split; auto; try lia.
  - f_equal; lia.
  - do 2 f_equal; lia.
Qed.

Tactic Notation "inv_seq" hyp(H) "as" ident(st) ident(c) ident(f) ident(c') ident(f') ident(Ha) ident(Hb) :=
  apply seq_inv in H as (st & c & f & c' & f' & Ha & Hb & -> & ->).

(** ** Labels *)
Fixpoint cnt (l : label) (is : list instr) : nat :=
  match is with
  | [] => 0
  | i :: r => (match i with ILabel m => if Nat.eqb l m then 1 else 0 | _ => 0 end) + cnt l r
  end.
Lemma cnt_app l a b : cnt l (a ++ b) = cnt l a + cnt l b.
Proof. induction a as [|i a IH]; simpl; auto. rewrite IH; lia. Qed.

Definition between (a b l : nat) : nat := if (a <=? l) && (l <? b) then 1 else 0.
Lemma between_spec a b l : (a <= l < b /\ between a b l = 1) \/ (~ (a <= l < b) /\ between a b l = 0).
Proof.
  unfold between; destruct (Nat.leb_spec a l), (Nat.ltb_spec l b); simpl; lia.
Qed.
Lemma eqb_spec' a b : (a = b /\ (if Nat.eqb a b then 1 else 0) = 1) \/
                      (a <> b /\ (if Nat.eqb a b then 1 else 0) = 0).
Proof. destruct (Nat.eqb_spec a b); auto. Qed.

(** Labels referred to by an instruction. *)
Definition refs1 (i : instr) : list label :=
  match i with
  | IJump l | IJumpIfFalse l | IClosure l _ => [l]
  | IBranch brs => map (fun t => snd (fst t)) brs
  | _ => []
  end.
Definition refs (is : list instr) : list label := flat_map refs1 is.
Lemma refs_app a b : refs (a ++ b) = refs a ++ refs b.
Proof. apply flat_map_app. Qed.

(** What a compiler action leaves behind: locals outside [X] are unchanged, every label allocated is
    emitted exactly once, and only those (or ones satisfying [T]) are referred to. *)
Record static (T : label -> Prop) (X : list name) (st0 st1 : cst) (c : list instr)
       (f : list (list instr)) : Prop := mkStatic {
  s_locals : forall x, ~ In x X -> lookup x (c_locals st1) = lookup x (c_locals st0);
  s_next : c_next st0 <= c_next st1;
  s_cnt : forall l, cnt l c + cnt l (concat f) = between (c_next st0) (c_next st1) l;
  s_refs : forall l, In l (refs c) \/ In l (refs (concat f)) ->
                     c_next st0 <= l < c_next st1 \/ T l }.

Lemma between_nil a l : between a a l = 0.
Proof. destruct (between_spec a a l); lia. Qed.

Lemma static_nil T X st sz : static T X st (mkCst sz (c_locals st) (c_next st)) [] [].
Proof.
  split; simpl; auto.
  - intros l; rewrite between_nil; auto.
  - intros l [[]|[]].
Qed.

Lemma static_emit T X st sz i : cnt 0 [i] = 0 -> (forall l, cnt l [i] = 0) -> refs1 i = [] ->
  static T X st (mkCst sz (c_locals st) (c_next st)) [i] [].
Proof.
  intros _ Hc Hr; split; cbn [c_locals c_next]; auto.
  - intros l; rewrite between_nil, Hc; auto.
  - intros l [H|H]; [unfold refs in H; cbn [flat_map] in H; rewrite Hr in H|]; destruct H.
Qed.

Lemma static_app T X st0 st1 st2 c1 c2 f1 f2 :
  static T X st0 st1 c1 f1 -> static T X st1 st2 c2 f2 -> static T X st0 st2 (c1 ++ c2) (f1 ++ f2).
Proof.
  intros [L1 N1 C1 R1] [L2 N2 C2 R2]; split.
  - intros x H; rewrite L2, L1; auto.
  - lia.
  - intros l; specialize (C1 l); specialize (C2 l). rewrite concat_app, !cnt_app.
    destruct (between_spec (c_next st0) (c_next st1) l), (between_spec (c_next st1) (c_next st2) l),
      (between_spec (c_next st0) (c_next st2) l); lia.
  - intros l; rewrite concat_app, !refs_app, !in_app_iff; intros H.
    specialize (R1 l); specialize (R2 l).
    assert (HH : (In l (refs c1) \/ In l (refs (concat f1))) \/
                 (In l (refs c2) \/ In l (refs (concat f2)))) by tauto.
    destruct HH as [HH|HH]; [destruct (R1 HH)|destruct (R2 HH)]; auto; left; lia.
Qed.

Lemma static_weaken (T T' : label -> Prop) X X' st0 st1 c f :
  static T X st0 st1 c f -> incl X X' -> (forall l, T l -> T' l) -> static T' X' st0 st1 c f.
Proof.
  intros [L N C R] HX HT; split; auto.
  intros l H; destruct (R l H); auto.
Qed.

Lemma static_seqs T X (cs : list cmd) :
  Forall (fun cm : cmd => forall st0 st1 c f, cm st0 = Some (st1, c, f) -> static T X st0 st1 c f) cs ->
  forall st0 st1 c f, seqs cs st0 = Some (st1, c, f) -> static T X st0 st1 c f.
Proof.
  induction 1 as [|cm cs Hc _ IH]; intros st0 st1 c f H; simpl in H.
  - injection H as <- <- <-. destruct st0 as [sz l n]. apply (static_nil T X (mkCst sz l n) sz).
  - inv_seq H as sa ca fa cb fb Ha Hb. eapply static_app; eauto.
Qed.

Lemma static_define T X x st sz : In x X -> static T X st (mkCst sz ((x, sz - 1) :: c_locals st) (c_next st)) [] [].
Proof.
  intros Hx; split; simpl; auto.
  - intros y Hy; destruct (Nat.eqb_spec y x); auto. subst; tauto.
  - intros l; rewrite between_nil; auto.
  - intros l [[]|[]].
Qed.

Lemma static_define_slots T X xs st0 st1 c f : incl xs X ->
  define_slots xs st0 = Some (st1, c, f) -> static T X st0 st1 c f.
Proof.
  intros HX; apply static_seqs. rewrite Forall_map, Forall_forall. intros x Hx s0 s1 c' f' H.
  inv_seq H as sa ca fa cb fb Ha Hb. apply chg_inv in Ha as (? & -> & -> & ->). apply define_inv in Hb as (? & -> & -> & ->).
  cbn [c_sz c_locals c_next app].
  split; cbn [c_sz c_locals c_next]; auto.
  - intros y Hy. cbn. destruct (Nat.eqb_spec y x); auto. subst. exfalso; apply Hy; auto.
  - intros l; rewrite between_nil; auto.
  - intros l [[]|[]].
Qed.

Lemma define_slots_code xs st0 st1 c f :
  define_slots xs st0 = Some (st1, c, f) ->
  c = [] /\ f = [] /\ c_sz st1 = c_sz st0 + length xs /\ c_next st1 = c_next st0 /\
  c_locals st1 = rev (combine xs (List.seq (c_sz st0) (length xs))) ++ c_locals st0.
Proof.
  revert st0 c f; induction xs as [|x xs IH]; intros st0 c f H; unfold define_slots in H; simpl in H.
  - injection H as <- <- <-; simpl; auto.
  - inv_seq H as sa ca fa cb fb Ha Hb. inv_seq Ha as sc cc fc cd fd Hc Hd.
    apply chg_inv in Hc as (? & -> & -> & ->).
    apply define_inv in Hd as (? & -> & -> & ->).
    apply IH in Hb as (-> & -> & Hs & Hn & Hl). cbn [c_sz c_locals c_next length] in *.
    repeat split; auto; try lia.
    rewrite Hl. replace (c_sz st0 + 1 - 0) with (S (c_sz st0)) by lia.
    cbn [combine rev List.seq]. rewrite <- app_assoc; cbn [app].
    replace (S (c_sz st0) - 1) with (c_sz st0) by lia. reflexivity.
Qed.

Lemma picks_static T X xs st0 st1 c f :
  seqs (map pick_var xs) st0 = Some (st1, c, f) -> static T X st0 st1 c f.
Proof.
  apply static_seqs. rewrite Forall_map, Forall_forall. intros x Hx s0 s1 c' f' H.
  apply pick_inv in H as (a & _ & _ & -> & -> & ->). apply static_emit; auto.
Qed.

Lemma picks_sz xs st0 st1 c f :
  seqs (map pick_var xs) st0 = Some (st1, c, f) ->
  c_sz st1 = c_sz st0 + length xs /\ f = [] /\ c_locals st1 = c_locals st0 /\ c_next st1 = c_next st0.
Proof.
  revert st0 c f; induction xs as [|x xs IH]; intros st0 c f H; simpl in H.
  - injection H as <- <- <-; simpl; auto.
  - inv_seq H as sa ca fa cb fb Ha Hb. apply pick_inv in Ha as (a & _ & _ & -> & -> & ->).
    apply IH in Hb as (-> & -> & -> & ->). simpl. repeat split; auto; lia.
Qed.

Lemma swappops_inv {A} (bs : list A) st0 st1 c f :
  seqs (map (fun _ => emit ISwapPop 1 0) bs) st0 = Some (st1, c, f) ->
  c = repeat ISwapPop (length bs) /\ f = [] /\ length bs <= c_sz st0 /\
  st1 = mkCst (c_sz st0 - length bs) (c_locals st0) (c_next st0).
Proof.
  revert st0 c f; induction bs as [|b bs IH]; intros st0 c f H; simpl in H.
  - injection H as <- <- <-; simpl; repeat split; auto; try lia. destruct st0; simpl; f_equal; lia.
  - inv_seq H as sa ca fa cb fb Ha Hb. apply emit_inv in Ha as (? & -> & -> & ->). apply IH in Hb as (-> & -> & ? & ->).
    cbn [c_sz c_locals c_next length] in *. repeat split; auto; try lia. f_equal; lia.
Qed.

Lemma sets_inv xs st0 st1 c f :
  seqs (map set_var xs) st0 = Some (st1, c, f) ->
  f = [] /\ length xs <= c_sz st0 /\ st1 = mkCst (c_sz st0 - length xs) (c_locals st0) (c_next st0) /\
  (forall l, cnt l c = 0) /\ refs c = [].
Proof.
  revert st0 c f; induction xs as [|b bs IH]; intros st0 c f H; simpl in H.
  - injection H as <- <- <-; simpl; repeat split; auto; try lia. destruct st0; simpl; f_equal; lia.
  - inv_seq H as sa ca fa cb fb Ha Hb. apply set_inv in Ha as (a & _ & ? & -> & -> & ->). apply IH in Hb as (-> & ? & -> & Hc & Hr).
    cbn [c_sz c_locals c_next length app] in *. repeat split; auto; try lia. f_equal; lia.
Qed.

(** The branch loop of [EMatch], named. *)
Definition compile_brs (cv : expr -> cmd) (end_l : label) :
  list (name * list name * expr) -> list label -> cmd :=
  (fix go (l : list (name * list name * expr)) (ls : list label) : cmd :=
   match l, ls with
   | ((c, bs), v) :: r, lb :: ls' =>
     emit (ILabel lb) 0 0 ;;
     define_slots bs ;;
     cv v ;;
     seqs (map (fun _ => emit ISwapPop 1 0) bs) ;;
     emit (IJump end_l) 0 0 ;;
     chg 1 0 ;;
     go r ls'
   | _, _ => skip
   end)%cmd.

Definition branch_table (brs : list (name * list name * expr)) (ls : list label) :
  list (name * label * nat) :=
  map (fun '(((c, bs), _), l) => ((c, l), length bs)) (combine brs ls).

Lemma compile_match_eq d brs ctx tail :
  compile_expr (EMatch d brs) ctx tail =
  (compile_expr d ctx false ;;
   fresh (fun end_l => fresh_n (length brs) (fun labels =>
     emit (IBranch (branch_table brs labels)) 1 0 ;;
     compile_brs (fun v => compile_expr v ctx tail) end_l brs labels ;;
     emit (ILabel end_l) 0 0 ;;
     chg 0 1)))%cmd.
Proof. reflexivity. Qed.

(** ** The result of [compile_function] *)
Definition fun_locals (ps : list name) (rec : option name) (caps : list name) : list (name * nat) :=
  rev (combine caps (List.seq (length ps + 2) (length caps))) ++
  match rec with Some n => [(n, length ps)] | None => [] end ++
  rev (combine ps (List.seq 0 (length ps))).
Definition fun_sz (ps caps : list name) : nat := length ps + 2 + length caps.
Definition fun_ctx (tl : label) (ps : list name) (rec : option name) (caps : list name) : fctx :=
  mkFctx (fun_sz ps caps) tl ps rec.
Definition fun_st (ps : list name) (rec : option name) (caps : list name) (next : label) : cst :=
  mkCst (fun_sz ps caps) (fun_locals ps rec caps) next.
Definition fun_code (entry tl : label) (ps caps : list name) (bcode : list instr) : list instr :=
  [ILabel entry; IEnter (length caps); ILabel tl] ++ bcode ++ [IReturn (length ps) (length caps)].

Lemma compile_function_inv entry tl ps rec caps body st st' c f :
  compile_function entry tl ps rec caps body st = Some (st', c, f) ->
  exists stb bcode bfns,
    body (fun_ctx tl ps rec caps) (fun_st ps rec caps (c_next st)) = Some (stb, bcode, bfns) /\
    c_sz stb = fun_sz ps caps + 1 /\
    st' = mkCst (c_sz st) (c_locals st) (c_next stb) /\ c = [] /\
    f = bfns ++ [fun_code entry tl ps caps bcode].
Proof.
  unfold compile_function. set (inner := seq _ _).
  destruct (inner (mkCst 0 [] (c_next st))) as [[[sti code] fns]|] eqn:E; try discriminate.
  intros H; injection H as <- <- <-. subst inner.
  inv_seq E as s1 c1 f1 cr1 fr1 Ha E1. apply emit_inv in Ha as (_ & -> & -> & ->). cbn [c_sz c_locals c_next] in *.
  inv_seq E1 as s2 c2 f2 cr2 fr2 Ha E2. apply define_slots_code in Ha as (-> & -> & Hs1 & Hn1 & Hl1).
  inv_seq E2 as s3 c3 f3 cr3 fr3 Ha E3. apply chg_inv in Ha as (_ & -> & -> & ->).
  inv_seq E3 as s4 c4 f4 cr4 fr4 Ha E4.
  assert (HR : c_sz s4 = length ps + 1 /\ c_next s4 = c_next st /\ c4 = [] /\ f4 = [] /\
     c_locals s4 = match rec with Some n => [(n, length ps)] | None => [] end ++
                    rev (combine ps (List.seq 0 (length ps)))).
  { cbn [c_sz c_locals c_next] in *. rewrite app_nil_r in Hl1. destruct rec.
    - apply define_inv in Ha as (_ & -> & -> & ->). cbn [c_sz c_locals c_next] in *.
      rewrite Hl1, Hs1. repeat split; auto; simpl; try lia. do 2 f_equal; lia.
    - unfold skip in Ha; injection Ha as <- <- <-; cbn [c_sz c_locals c_next] in *.
      rewrite Hl1, Hs1; repeat split; auto; simpl; lia. }
  destruct HR as (Hs2 & Hn2 & -> & -> & Hl2).
  inv_seq E4 as s5 c5 f5 cr5 fr5 Hb E5. apply chg_inv in Hb as (_ & -> & -> & ->). cbn [c_sz c_locals c_next] in *.
  inv_seq E5 as s6 c6 f6 cr6 fr6 Hb E6. apply define_slots_code in Hb as (-> & -> & Hs3 & Hn3 & Hl3).
  cbn [c_sz c_locals c_next] in *.
  assert (Est : s6 = fun_st ps rec caps (c_next st)).
  { destruct s6 as [s l n]; cbn [c_sz c_locals c_next] in *. unfold fun_st, fun_sz, fun_locals.
    subst. f_equal; try lia. rewrite Hs2, Hl2. do 4 f_equal; lia. }
  subst s6. cbn [app].
  inv_seq E6 as s7 c7 f7 cr7 fr7 Hb E7. apply emit_inv in Hb as (_ & -> & -> & ->).
  inv_seq E7 as s8 c8 f8 cr8 fr8 Hb E8. apply emit_inv in Hb as (_ & -> & -> & ->).
  cbn [c_sz c_locals c_next] in *.
  inv_seq E8 as s9 c9 f9 cr9 fr9 Hbody E9. inv_seq E9 as s10 c10 f10 cr10 fr10 Hb E10.
  apply emit_inv in Hb as (Hle & -> & -> & ->).
  cbn [c_sz c_locals c_next] in *.
  destruct (Nat.eqb_spec (c_sz s9 + 0 - (length ps + length caps + 2)) 1); try discriminate.
  injection E10 as <- <- <-.
  exists s9, c9, f9. repeat split.
  - rewrite <- Hbody. unfold fun_ctx, fun_st; cbn [c_sz c_locals c_next fun_sz];
      rewrite ?Nat.sub_0_r, ?Nat.add_0_r; reflexivity.
  - unfold fun_sz; lia.
  - cbn. rewrite ?app_nil_r. reflexivity.
Qed.

(** ** Expressions *)
Definition tail_ref (ctx : fctx) (l : label) : Prop := f_rec ctx <> None /\ l = f_tail ctx.

Definition ctx_rec (ctx : fctx) : option (name * nat) :=
  match f_rec ctx with Some n => Some (n, length (f_params ctx)) | None => None end.

(** The static specification of compiling one expression. *)
Definition estatic (e : expr) : Prop := forall ctx tail st0 st1 c f,
  compile_expr e ctx tail st0 = Some (st1, c, f) ->
  shape (ctx_rec ctx) tail e = true ->
  static (tail_ref ctx) (binders e) st0 st1 c f /\ c_sz st1 = S (c_sz st0).

Lemma args_static ctx args X (k : bool) :
  Forall estatic args -> incl (flat_map binders args) X ->
  forallb (shape (ctx_rec ctx) false) args = true ->
  forall st0 st1 c f,
    seqs (map (fun a => compile_expr a ctx false) args) st0 = Some (st1, c, f) ->
    static (tail_ref ctx) X st0 st1 c f /\ c_sz st1 = c_sz st0 + length args.
Proof.
  induction 1 as [|a args Ha _ IH]; intros HX Hs st0 st1 c f H; simpl in H.
  - injection H as <- <- <-. split; [|simpl; lia].
    destruct st0 as [sz l n]; apply (static_nil _ X (mkCst sz l n) sz).
  - simpl in Hs; apply andb_prop in Hs as [Hs1 Hs2]. inv_seq H as sa ca fa cb fb Hca Hcb.
    apply Ha in Hca as [S1 Z1]; auto. apply IH in Hcb as [S2 Z2]; auto.
    + split; [|simpl; lia]. eapply static_app; eauto.
      eapply static_weaken; eauto. intros x Hx; apply HX; simpl; apply in_or_app; auto.
    + intros x Hx; apply HX; simpl; apply in_or_app; auto.
Qed.

Lemma fn_static entry tl ps rec caps body (st st' : cst) c f :
  estatic body ->
  tl = S entry -> c_next st = S tl ->
  shape (match rec with Some n => Some (n, length ps) | None => None end) true body = true ->
  compile_function entry tl ps rec caps (fun ctx => compile_expr body ctx true) st = Some (st', c, f) ->
  c = [] /\ c_sz st' = c_sz st /\ c_locals st' = c_locals st /\ c_next st <= c_next st' /\
  (forall l, cnt l (concat f) = between entry (c_next st') l) /\
  (forall l, In l (refs (concat f)) -> entry <= l < c_next st').
Proof.
  intros Hb -> Hn Hsh H. apply compile_function_inv in H as (stb & bcode & bfns & Hc & Hsz & -> & -> & ->).
  destruct (Hb _ _ _ _ _ _ Hc Hsh) as [[L N C R] Z]. unfold fun_st in N, C, R; cbn [c_sz c_locals c_next] in *.
  repeat split; auto.
  - intros l. rewrite concat_app, !cnt_app. cbn [concat]. rewrite app_nil_r. unfold fun_code.
    rewrite !cnt_app. cbn [cnt]. specialize (C l). rewrite Hn in *.
    destruct (between_spec (S (S entry)) (c_next stb) l), (between_spec entry (c_next stb) l),
      (eqb_spec' l entry), (eqb_spec' l (S entry)); lia.
  - rewrite concat_app, !refs_app, !in_app_iff in H. cbn [concat] in H. rewrite app_nil_r in H.
    unfold fun_code in H. rewrite !refs_app, !in_app_iff in H. cbn in H.
    specialize (R l). rewrite Hn in *. unfold tail_ref, fun_ctx in R; cbn in R.
    assert (HR : In l (refs bcode) \/ In l (refs (concat bfns))) by tauto. apply R in HR. lia.
  - rewrite concat_app, !refs_app, !in_app_iff in H. cbn [concat] in H. rewrite app_nil_r in H.
    unfold fun_code in H. rewrite !refs_app, !in_app_iff in H. cbn in H.
    specialize (R l). rewrite Hn in *. unfold tail_ref, fun_ctx in R; cbn in R.
    assert (HR : In l (refs bcode) \/ In l (refs (concat bfns))) by tauto. apply R in HR. lia.
Qed.

Lemma brs_static ctx tail end_l X brs :
  Forall (fun br => estatic (snd br)) brs ->
  incl (flat_map (fun br => snd (fst br) ++ binders (snd br)) brs) X ->
  forallb (fun br => shape (ctx_rec ctx) tail (snd br)) brs = true ->
  forall lb st0 st1 c f,
    compile_brs (fun v => compile_expr v ctx tail) end_l brs (List.seq lb (length brs)) st0 = Some (st1, c, f) ->
    (forall x, ~ In x X -> lookup x (c_locals st1) = lookup x (c_locals st0)) /\
    c_next st0 <= c_next st1 /\ c_sz st1 = c_sz st0 /\
    (forall l, cnt l c + cnt l (concat f) =
               between lb (lb + length brs) l + between (c_next st0) (c_next st1) l) /\
    (forall l, In l (refs c) \/ In l (refs (concat f)) ->
               l = end_l \/ c_next st0 <= l < c_next st1 \/ tail_ref ctx l).
Proof.
  induction 1 as [|[[cn bs] v] brs Hv _ IH]; intros HX Hs lb st0 st1 c f H.
  - simpl in H. unfold skip in H. injection H as <- <- <-. cbn [length refs flat_map concat cnt].
    repeat split; auto; try lia.
    + intros l. rewrite !Nat.add_0_r, !between_nil; auto.
    + intros l [[]|[]].
  - unfold compile_brs in H. cbn [length List.seq] in H. fold (compile_brs (fun v => compile_expr v ctx tail) end_l) in H. simpl in Hs. apply andb_prop in Hs as [Hs1 Hs2].
    cbn [snd fst] in *.
    inv_seq H as s1 c1 f1 cr1 fr1 Ha E1. apply emit_inv in Ha as (_ & -> & -> & ->). cbn [c_sz c_locals c_next] in *.
    inv_seq E1 as s2 c2 f2 cr2 fr2 Ha E2. apply define_slots_code in Ha as E. pose proof (@static_define_slots (tail_ref ctx) X bs) as SD.
    apply SD in Ha; [|intros x Hx; apply HX; cbn; apply in_or_app; left; apply in_or_app; auto]. clear SD.
    destruct E as (-> & -> & Hsz1 & Hn1 & _). cbn [c_sz c_locals c_next] in *.
    inv_seq E2 as s3 c3 f3 cr3 fr3 Hb E3. apply Hv in Hb as [S1 Z1]; auto.
    inv_seq E3 as s4 c4 f4 cr4 fr4 Hb E4. apply swappops_inv in Hb as (-> & -> & Hle & ->). cbn [c_sz c_locals c_next] in *.
    inv_seq E4 as s5 c5 f5 cr5 fr5 Hb E5. apply emit_inv in Hb as (_ & -> & -> & ->). cbn [c_sz c_locals c_next] in *.
    inv_seq E5 as s6 c6 f6 cr6 fr6 Hb E6. apply chg_inv in Hb as (Hle2 & -> & -> & ->). cbn [c_sz c_locals c_next] in *.
    apply IH in E6 as (L2 & N2 & Z2 & C2 & R2); auto.
    2:{ intros x Hx; apply HX; cbn; apply in_or_app; auto. }
    cbn [c_sz c_locals c_next] in *. destruct S1 as [L1 N1 C1 R1]. destruct Ha as [L0 N0 C0 R0].
    cbn [c_sz c_locals c_next] in *.
    repeat split.
    + intros x Hx. rewrite L2, L1, L0; auto.
      intros Hx'; apply Hx, HX; cbn; apply in_or_app; left; apply in_or_app; auto.
    + lia.
    + lia.
    + intros l. rewrite ?app_nil_l, ?app_nil_r, ?concat_app, !cnt_app. cbn [concat cnt].
      rewrite ?Nat.add_0_r.
      assert (Hsw : cnt l (repeat ISwapPop (length bs)) = 0) by (clear; induction bs; simpl; auto).
      rewrite Hsw. specialize (C1 l); specialize (C2 l). cbn [length].
      destruct (eqb_spec' l lb), (between_spec (c_next st0) (c_next st1) l),
        (between_spec (c_next s2) (c_next s3) l), (between_spec (c_next s3) (c_next st1) l),
        (between_spec lb (lb + S (length brs)) l), (between_spec (S lb) (S lb + length brs) l); lia.
    + intros l. rewrite ?app_nil_l, ?app_nil_r, ?concat_app, !refs_app, !in_app_iff. cbn.
      assert (Hsw : ~ In l (refs (repeat ISwapPop (length bs)))) by (clear; induction bs; simpl; auto).
      intros HH.
      assert (HH' : end_l = l \/ (In l (refs c3) \/ In l (refs (concat f3))) \/
                    (In l (refs cr6) \/ In l (refs (concat fr6)))) by tauto.
      destruct HH' as [->|[HH'|HH']]; auto.
      * apply R1 in HH' as [?|?]; auto. right; left; lia.
      * apply R2 in HH' as [?|[?|?]]; auto. right; left; lia.
Qed.

Lemma strip_pis_binders v ps b : strip_pis v = ELam ps b -> binders v = map fst ps ++ binders b.
Proof. induction v; simpl; intros H; try discriminate; auto. injection H as -> ->; auto. Qed.


Lemma is_self_tail_inv ctx tail f : is_self_tail ctx tail f = true ->
  exists n, f = EName n /\ tail = true /\ f_rec ctx = Some n.
Proof.
  destruct f; simpl; try discriminate. intros H; apply andb_prop in H as [-> H].
  destruct (f_rec ctx) as [m|]; try discriminate. apply Nat.eqb_eq in H as ->. eauto.
Qed.

Lemma tail_call_inv ctx st0 st1 c f :
  tail_call ctx st0 = Some (st1, c, f) ->
  exists st c1 c2, seqs (map set_var (rev (f_params ctx))) st0 = Some (st, c1, []) /\
    st = mkCst (c_sz st0 - length (f_params ctx)) (c_locals st0) (c_next st0) /\
    f_entry_sz ctx <= c_sz st /\
    c2 = (if 0 <? c_sz st - f_entry_sz ctx then [IPopN (c_sz st - f_entry_sz ctx)] else []) /\
    c = c1 ++ c2 ++ [IJump (f_tail ctx)] /\ f = [] /\
    length (f_params ctx) <= c_sz st0 /\
    st1 = mkCst (S (c_sz st)) (c_locals st0) (c_next st0).
Proof.
  unfold tail_call; intros H. inv_seq H as sa ca fa cb fb Hca Hcb. apply sets_inv in Hca as E.
  destruct E as (-> & Hle & -> & _ & _). rewrite rev_length in *.
  eexists _, _, _; split; [exact Hca|]; cbn [c_sz]; clear Hca. inv_seq Hcb as sc cc fc cd fd Hc Hd.
  cbn [c_sz c_locals c_next] in *.
  destruct (Nat.leb_spec (f_entry_sz ctx) (c_sz st0 - length (f_params ctx))); try discriminate.
  assert (E : sc = mkCst (c_sz st0 - length (f_params ctx)) (c_locals st0) (c_next st0) /\ fc = [] /\
     cc = (if 0 <? c_sz st0 - length (f_params ctx) - f_entry_sz ctx
           then [IPopN (c_sz st0 - length (f_params ctx) - f_entry_sz ctx)] else [])).
  { destruct (0 <? _).
    - apply emit_inv in Hc as (_ & -> & -> & ->). cbn [c_sz c_locals c_next]. repeat split; f_equal; lia.
    - unfold skip in Hc; injection Hc as <- <- <-; auto. }
  destruct E as (-> & -> & ->). apply emit_inv in Hd as (_ & -> & -> & ->). cbn [c_sz c_locals c_next].
  repeat split; auto; try lia. f_equal; lia.
Qed.

Ltac cs := cbn [c_sz c_locals c_next] in *.
Ltac split_and H := repeat match type of H with _ && _ = true => apply andb_prop in H; destruct H as [H ?] end.

Theorem compile_static e : estatic e.
Proof.
  induction e using expr_ind_rec; intros ctx tail st0 st1 cc ff Hcm Hsh; cbn [binders].
  - apply emit_inv in Hcm as (_ & -> & -> & ->). split; [apply static_emit; auto|cs; lia].
  - apply emit_inv in Hcm as (_ & -> & -> & ->). split; [apply static_emit; auto|cs; lia].
  - apply emit_inv in Hcm as (_ & -> & -> & ->). split; [apply static_emit; auto|cs; lia].
  - apply pick_inv in Hcm as (a & _ & _ & -> & -> & ->). split; [apply static_emit; auto|cs; lia].
  - (* Call *)
    cbn [compile_expr] in Hcm. simpl in Hsh.
    apply andb_prop in Hsh as [Hsh Hk]. apply andb_prop in Hsh as [Hf Ha].
    inv_seq Hcm as s1 c1 f1 cr1 fr1 E E1. eapply (@args_static ctx args (binders e ++ flat_map binders args)) in E as [S1 Z1]; auto.
    2:{ intros x Hx; apply in_or_app; auto. }
    destruct (is_self_tail ctx tail e) eqn:Et.
    + apply is_self_tail_inv in Et as (n & -> & -> & Hr). unfold ctx_rec in Hk; rewrite Hr in Hk.
      cbn in Hk. rewrite Nat.eqb_refl in Hk. apply Nat.eqb_eq in Hk.
      apply tail_call_inv in E1 as (st' & c1' & c2 & Hsets & -> & Hle & -> & -> & -> & Hle2 & ->). cs.
      apply sets_inv in Hsets as (_ & _ & _ & Hc & Hrf).
      split; [|lia]. eapply static_app; [exact S1|].
      split; cs; auto.
      * intros l; rewrite !cnt_app, Hc, between_nil; destruct (0 <? _); simpl; auto.
      * intros l; rewrite !refs_app, Hrf. destruct (0 <? _); simpl; intros [[<-|[]]|[]]; right; split; congruence.
    + inv_seq E1 as s2 c2 f2 cr2 fr2 E E2. apply IHe in E as [S2 Z2]; auto. apply emit_inv in E2 as (? & -> & -> & ->). cs.
      split; [|lia]. eapply static_app; [exact S1|]. eapply static_app.
      * eapply static_weaken; [exact S2| |auto]. intros x Hx; apply in_or_app; auto.
      * apply static_emit; auto.
  - (* If *)
    cbn [compile_expr] in Hcm. simpl in Hsh. apply andb_prop in Hsh as [Hsh He]. apply andb_prop in Hsh as [Hc Ht].
    inv_seq Hcm as s1 c1 f1 cr1 fr1 E E1. apply IHe1 in E as [S1 Z1]; auto. unfold fresh in E1. cs.
    inv_seq E1 as s2 c2 f2 cr2 fr2 E E2. apply emit_inv in E as (? & -> & -> & ->). cs.
    inv_seq E2 as s3 c3 f3 cr3 fr3 E E3. apply IHe2 in E as [S2 Z2]; auto. cs.
    inv_seq E3 as s4 c4 f4 cr4 fr4 E E4. apply emit_inv in E as (? & -> & -> & ->). cs.
    inv_seq E4 as s5 c5 f5 cr5 fr5 E E5. apply emit_inv in E as (? & -> & -> & ->). cs.
    inv_seq E5 as s6 c6 f6 cr6 fr6 E E6. apply chg_inv in E as (? & -> & -> & ->). cs.
    inv_seq E6 as s7 c7 f7 cr7 fr7 E E7. apply IHe3 in E as [S3 Z3]; auto. cs.
    apply emit_inv in E7 as (? & -> & -> & ->). cs.
    split; [|lia]. destruct S1 as [L1 N1 C1 R1], S2 as [L2 N2 C2 R2], S3 as [L3 N3 C3 R3]. cs.
    split; cs.
    + intros x Hx; rewrite !in_app_iff in Hx. rewrite L3, L2, L1 by tauto. auto.
    + lia.
    + intros l. rewrite !concat_app, !cnt_app. cbn [concat cnt app]. rewrite ?app_nil_r, ?concat_app, ?cnt_app. cbn [cnt concat].
      rewrite ?Nat.add_0_r, ?Nat.add_0_l.
      specialize (C1 l); specialize (C2 l); specialize (C3 l).
      destruct (between_spec (c_next st0) (c_next s1) l),
        (between_spec (S (S (c_next s1))) (c_next s3) l), (between_spec (c_next s3) (c_next s7) l),
        (between_spec (c_next st0) (c_next s7) l), (eqb_spec' l (c_next s1)), (eqb_spec' l (S (c_next s1))); lia.
    + intros l. rewrite ?concat_app. cbn [concat app]. rewrite ?app_nil_r, ?concat_app, !refs_app, !in_app_iff. cbn.
      intros HH.
      assert (HH' : (l = c_next s1 \/ l = S (c_next s1)) \/
         (In l (refs c1) \/ In l (refs (concat f1))) \/
         (In l (refs c3) \/ In l (refs (concat f3))) \/
         (In l (refs c7) \/ In l (refs (concat f7)))).
      { rewrite ?refs_app, ?in_app_iff in HH. cbn in HH. rewrite ?in_app_iff in HH. cbn in HH.
        change (flat_map refs1 (c7 ++ [ILabel (S (c_next s1))])) with (refs (c7 ++ [ILabel (S (c_next s1))])) in HH.
        rewrite ?refs_app, ?in_app_iff in HH. cbn in HH. intuition auto. }
      destruct HH' as [HH'|[HH'|[HH'|HH']]].
      * left; lia.
      * apply R1 in HH' as [?|?]; auto; left; lia.
      * apply R2 in HH' as [?|?]; auto; left; lia.
      * apply R3 in HH' as [?|?]; auto; left; lia.
  - (* Op *)
    cbn [compile_expr] in Hcm. simpl in Hsh. apply andb_prop in Hsh as [Ha Hb].
    inv_seq Hcm as s1 c1 f1 cr1 fr1 E E1. apply IHe1 in E as [S1 Z1]; auto.
    inv_seq E1 as s2 c2 f2 cr2 fr2 E E2. apply IHe2 in E as [S2 Z2]; auto.
    apply emit_inv in E2 as (? & -> & -> & ->). cs. split; [|lia].
    eapply static_app; [|eapply static_app].
    + eapply static_weaken; [exact S1| |auto]. intros x Hx; apply in_or_app; auto.
    + eapply static_weaken; [exact S2| |auto]. intros x Hx; apply in_or_app; auto.
    + apply static_emit; auto.
  - (* Intr *)
    cbn [compile_expr] in Hcm. simpl in Hsh. apply andb_prop in Hsh as [Hk Ha]. apply Nat.eqb_eq in Hk.
    inv_seq Hcm as s1 c1 f1 cr1 fr1 E E1. eapply args_static in E as [S1 Z1]; eauto using incl_refl.
    apply emit_inv in E1 as (? & -> & -> & ->). cs. split.
    + eapply static_app; [exact S1|apply static_emit; auto].
    + destruct i; simpl in *; lia.
  - (* Lam *)
    cbn [compile_expr] in Hcm. simpl in Hsh. unfold fresh in Hcm. cs. set (caps := free_variables _) in *.
    inv_seq Hcm as s1 c1 f1 cr1 fr1 E E1. eapply fn_static in E as (-> & Hz & Hl & Hn & HC & HR); cs; eauto.
    inv_seq E1 as s2 c2 f2 cr2 fr2 E E2. apply picks_sz in E as EE. destruct EE as (Hz2 & -> & Hl2 & Hn2).
    eapply (@picks_static (fun _ => False) []) in E as [_ _ PC PR].
    apply emit_inv in E2 as (? & -> & -> & ->). cs. split; [|lia].
    rewrite Hn2 in *. split; cs.
    + intros x _; congruence.
    + lia.
    + intros l. rewrite ?app_nil_l, ?app_nil_r, cnt_app, HC. specialize (PC l). rewrite between_nil in PC. cbn; lia.
    + intros l. rewrite ?app_nil_l, ?app_nil_r, refs_app, in_app_iff. cbn. intros HH.
      assert (HH' : In l (refs c2) \/ l = c_next st0 \/ In l (refs (concat f1))) by intuition.
      destruct HH' as [HH'|[->|HH']].
      * left. destruct (PR l (or_introl HH')) as [?|[]]; lia.
      * left; lia.
      * apply HR in HH'; left; lia.
  - (* Match *)
    rewrite compile_match_eq in Hcm. simpl in Hsh. apply andb_prop in Hsh as [Hd Hb].
    inv_seq Hcm as s1 c1 f1 cr1 fr1 E E1. apply IHe in E as [S1 Z1]; auto. unfold fresh, fresh_n in E1. cs.
    inv_seq E1 as s2 c2 f2 cr2 fr2 E E2. apply emit_inv in E as (? & -> & -> & ->). cs.
    inv_seq E2 as s3 c3 f3 cr3 fr3 E E3. eapply brs_static in E as (L2 & N2 & Z2 & C2 & R2); eauto using incl_refl. cs.
    inv_seq E3 as s4 c4 f4 cr4 fr4 E E4. apply emit_inv in E as (? & -> & -> & ->). cs.
    apply chg_inv in E4 as (? & -> & -> & ->). cs. split; [|lia].
    destruct S1 as [L1 N1 C1 R1]. split; cs.
    + intros x Hx; rewrite in_app_iff in Hx. rewrite L2, L1 by tauto. auto.
    + lia.
    + intros l. rewrite ?app_nil_l, ?app_nil_r, ?concat_app, !cnt_app. cbn [cnt].
      specialize (C1 l); specialize (C2 l).
      destruct (between_spec (c_next st0) (c_next s1) l), (between_spec (c_next st0) (c_next s3) l),
        (between_spec (S (c_next s1)) (S (c_next s1) + length brs) l),
        (between_spec (S (c_next s1) + length brs) (c_next s3) l), (eqb_spec' l (c_next s1)); lia.
    + intros l. rewrite ?app_nil_l, ?app_nil_r, ?concat_app, !refs_app, !in_app_iff. cbn [refs flat_map refs1 app In].
      rewrite app_nil_r. intros HH.
      assert (Hbt : forall k n, In l (map (fun t : name * label * nat => snd (fst t)) (branch_table brs (List.seq k n))) -> k <= l < k + n).
      { clear. unfold branch_table. induction brs as [|[[cn bs] v] brs IH]; simpl; [tauto|].
        intros k [|n]; simpl; [tauto|]. intros [<-|HH]; [lia|]. apply IH in HH. lia. }
      assert (HH' : (In l (refs c1) \/ In l (refs (concat f1))) \/
                    (In l (refs c3) \/ In l (refs (concat f3))) \/
         In l (map (fun t : name * label * nat => snd (fst t)) (branch_table brs (List.seq (S (c_next s1)) (length brs))))) by intuition auto.
      destruct HH' as [HH'|[HH'|HH']].
      * apply R1 in HH' as [?|?]; auto; left; lia.
      * apply R2 in HH' as [?|[?|?]]; auto; left; lia.
      * apply Hbt in HH'. left; lia.
  - (* Construct *)
    cbn [compile_expr] in Hcm. simpl in Hsh.
    inv_seq Hcm as s1 c1 f1 cr1 fr1 E E1. eapply args_static in E as [S1 Z1]; eauto using incl_refl.
    apply emit_inv in E1 as (? & -> & -> & ->). cs. split; [|lia].
    eapply static_app; [exact S1|apply static_emit; auto].
  - (* Let *)
    cbn [compile_expr] in Hcm. simpl in Hsh. apply andb_prop in Hsh as [Ha Hb].
    inv_seq Hcm as s1 c1 f1 cr1 fr1 E E1. apply IHe1 in E as [S1 Z1]; auto.
    inv_seq E1 as s2 c2 f2 cr2 fr2 E E2.
    apply define_inv in E as (? & -> & -> & ->). inv_seq E2 as s3 c3 f3 cr3 fr3 E E3. apply IHe2 in E as [S2 Z2]; auto. cs.
    apply emit_inv in E3 as (? & -> & -> & ->). cs. split; [|lia].
    eapply static_app; [|eapply static_app; [|eapply static_app]].
    + eapply static_weaken; [exact S1| |auto]. intros x Hx; right; apply in_or_app; auto.
    + apply static_define. left; auto.
    + eapply static_weaken; [exact S2| |auto]. intros x Hx; right; apply in_or_app; auto.
    + apply static_emit; auto.
  - (* LetRec *)
    cbn [compile_expr] in Hcm. simpl in Hsh. destruct (strip_pis e1) as [| | | | | | | |ps b| | | | | | |] eqn:Es; try discriminate.
    apply andb_prop in Hsh as [Ha Hb]. unfold fresh in Hcm. cs. set (caps := filter _ _) in *.
    inv_seq Hcm as s1 c1 f1 cr1 fr1 E E1. eapply fn_static in E as (-> & Hz & Hl & Hn & HC & HR); cs; eauto.
    2:{ cbn. rewrite map_length; auto. }
    inv_seq E1 as s2 c2 f2 cr2 fr2 E E2. apply picks_sz in E as EE. destruct EE as (Hz2 & -> & Hl2 & Hn2).
    eapply (@picks_static (fun _ => False) []) in E as [_ _ PC PR].
    inv_seq E2 as s3 c3 f3 cr3 fr3 E E3. apply emit_inv in E as (? & -> & -> & ->). cs.
    inv_seq E3 as s4 c4 f4 cr4 fr4 E E4. apply define_inv in E as (? & -> & -> & ->). cs.
    inv_seq E4 as s5 c5 f5 cr5 fr5 E E5. apply IHe2 in E as [[L2 N2 C2 R2] Z2]; auto. cs.
    apply emit_inv in E5 as (? & -> & -> & ->). cs. split; [|lia].
    rewrite Hn2 in *. split; cs.
    + intros x Hx. cbn [In] in Hx. rewrite in_app_iff in Hx. rewrite L2 by tauto. cbn.
      destruct (Nat.eqb_spec x n); [subst; tauto|congruence].
    + lia.
    + intros l. rewrite ?app_nil_l, ?app_nil_r, !concat_app, !cnt_app, HC. specialize (PC l). rewrite between_nil in PC.
      specialize (C2 l). cbn [cnt].
      destruct (between_spec (c_next st0) (c_next s1) l), (between_spec (c_next st0) (c_next s5) l),
        (between_spec (c_next s1) (c_next s5) l); lia.
    + intros l. rewrite ?app_nil_l, ?app_nil_r, !concat_app, !refs_app, !in_app_iff. cbn. intros HH.
      assert (HH' : In l (refs c2) \/ l = c_next st0 \/ In l (refs (concat f1)) \/
                    (In l (refs c5) \/ In l (refs (concat f5)))) by intuition.
      destruct HH' as [HH'|[->|[HH'|HH']]].
      * left. destruct (PR l (or_introl HH')) as [?|[]]; lia.
      * left; lia.
      * apply HR in HH'; left; lia.
      * apply R2 in HH' as [?|?]; auto; left; lia.
  - apply IHe in Hcm; auto.
  - apply IHe in Hcm; auto.
  - apply emit_inv in Hcm as (_ & -> & -> & ->). split; [apply static_emit; auto|cs; lia].
Qed.
