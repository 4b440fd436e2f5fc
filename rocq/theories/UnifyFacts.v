(** The unifier as the type checker uses it. *)
From Coq Require Import Permutation.
From Verif Require Import Unify UnifySpec UnifyProofs.
Set Implicit Arguments.

Lemma resolves_ext u u' : (forall i, get u i = get u' i) -> forall i t, resolves u i t -> resolves u' i t.
Proof.
  intros Hg i t H. induction H; rewrite Hg in H.
  - apply res_infer; auto.
  - eapply res_next; eauto.
  - apply res_bool; auto.
  - apply res_int; auto.
  - apply res_string; auto.
  - apply res_named; auto.
  - apply res_error; auto.
  - eapply res_apply; eauto.
  - eapply res_fn; eauto.
  - eapply res_folded; eauto.
Qed.

(** *** commit *)
Lemma set_slot_length l : forall i s, length (set_slot l i s) = length l.
Proof. induction l; intros [|i] s; cbn; auto. Qed.
Lemma set_slot_nth l : forall i s j, i < length l -> nth_error (set_slot l i s) j = if Nat.eqb i j then Some s else nth_error l j.
Proof.
  induction l as [|x l IH]; intros [|i] s [|j] H; cbn in *; try lia; auto. apply IH. lia.
Qed.
Lemma fold_set_nth l : forall sl j, NoDup (map fst l) -> (forall k s, In (k, s) l -> k < length sl) ->
  nth_error (fold_left (fun sl p => set_slot sl (fst p) (snd p)) l sl) j =
  match assoc j l with Some s => Some s | None => nth_error sl j end.
Proof.
  induction l as [|[k s] l IH]; intros sl j Hd Hk; cbn [fold_left assoc map fst snd] in *; auto.
  inversion Hd; subst. rewrite IH; auto.
  - rewrite set_slot_nth by (eapply Hk; left; eauto). destruct (Nat.eqb_spec k j) as [->|Hne]; auto.
    rewrite (proj2 (assoc_none j l)); auto.
  - intros k' s' Hin. rewrite set_slot_length. eapply Hk. right; eauto.
Qed.
Lemma fold_set_length l : forall sl, length (fold_left (fun sl p => set_slot sl (fst p) (snd p)) l sl) = length sl.
Proof. induction l as [|p l IH]; intros sl; cbn; auto. rewrite IH. apply set_slot_length. Qed.
Lemma assoc_perm A (l l' : list (nat * A)) k : NoDup (map fst l) -> Permutation l l' -> assoc k l = assoc k l'.
Proof.
  intros Hd Hp. assert (Hd' : NoDup (map fst l')) by (eapply Permutation_NoDup; [apply Permutation_map; exact Hp|auto]).
  assert (G : forall l : list (nat * A), NoDup (map fst l) -> forall v, In (k, v) l -> assoc k l = Some v).
  { clear. induction l as [|[k' v'] l IH]; intros Hd v Hin; [destruct Hin|]. destruct Hin as [E|Hin]; cbn in *; inversion Hd; subst.
    - injection E as -> ->. rewrite Nat.eqb_refl. auto.
    - destruct (Nat.eqb_spec k' k) as [->|]; auto. exfalso. apply H1. apply in_map_iff. exists (k, v). auto. }
  destruct (assoc k l) as [v|] eqn:E.
  - symmetry. apply G; auto. eapply Permutation_in; eauto. apply assoc_in; auto.
  - symmetry. apply assoc_none. apply assoc_none in E. intros Hin. apply E.
    eapply Permutation_in; [apply Permutation_sym, Permutation_map; exact Hp|auto].
Qed.
Lemma nth_error_ext A (l l' : list A) : (forall i, nth_error l i = nth_error l' i) -> l = l'.
Proof.
  revert l'. induction l as [|x l IH]; intros [|y l'] H; auto; try (specialize (H 0); discriminate).
  pose proof (H 0) as H0. injection H0 as ->. f_equal. apply IH. intros i. apply (H (S i)).
Qed.
Lemma inv_keys u : inv u -> forall k s, In (k, s) (pending u) -> k < length (slots u).
Proof. intros Hi k s H. destruct (inv_pend Hi _ _ H) as [E _]. apply nth_error_Some. congruence. Qed.

(** The result does not depend on the iteration order of the hash map. *)
Lemma commit_order u l : inv u -> Permutation (pending u) l -> commit_in u l = commit u.
Proof.
  intros Hi Hp. unfold commit, commit_in. f_equal. apply nth_error_ext. intros i.
  rewrite !fold_set_nth; auto; try apply Hi.
  - rewrite (assoc_perm i (inv_nodup Hi) Hp). auto.
  - apply inv_keys; auto.
  - eapply Permutation_NoDup; [apply Permutation_map; exact Hp|apply Hi].
  - intros k s Hin. eapply inv_keys; eauto. eapply Permutation_in; [apply Permutation_sym; exact Hp|eauto].
Qed.
Lemma commit_get u i : inv u -> get (commit u) i = get u i.
Proof.
  intros Hi. unfold get at 1, commit, commit_in. cbn [pending assoc slots]. rewrite fold_set_nth; try apply Hi; auto.
  apply inv_keys; auto.
Qed.
Lemma commit_inv u : inv u -> inv (commit u).
Proof.
  intros Hi. constructor.
  - constructor.
  - intros k s [].
  - unfold commit, commit_in. cbn [slots]. rewrite fold_set_length. intros i Hl. destruct (inv_acyc Hi Hl) as [t Ht].
    exists t. eapply resolves_ext; [|exact Ht]. intros j. symmetry. apply commit_get; auto.
Qed.

(** *** push *)
Lemma get_push u s i : pending u = [] -> get (fst (push u s)) i = if Nat.eqb i (length (slots u)) then Some s else get u i.
Proof.
  intros Hp. unfold get, push. cbn [fst pending slots]. rewrite Hp. cbn.
  destruct (Nat.eqb_spec i (length (slots u))) as [->|Hne].
  - rewrite nth_error_app2, Nat.sub_diag by lia. auto.
  - destruct (Nat.lt_ge_cases i (length (slots u))).
    + apply nth_error_app1; auto.
    + rewrite (proj2 (nth_error_None (slots u) i)) by lia. apply nth_error_None. rewrite app_length; cbn; lia.
Qed.
Lemma push_resolves u s i t : inv u -> pending u = [] -> resolves u i t -> resolves (fst (push u s)) i t.
Proof.
  intros Hi Hp H. induction H;
  try (match goal with H : get u ?i = _ |- _ => assert (Hx : get (fst (push u s)) i = get u i) by
    (rewrite get_push by auto; destruct (Nat.eqb_spec i (length (slots u))); auto;
     pose proof (get_lt _ Hi H); lia) end).
  - apply res_infer; congruence.
  - eapply res_next; [rewrite Hx; eauto|auto].
  - apply res_bool; congruence.
  - apply res_int; congruence.
  - apply res_string; congruence.
  - apply res_named; congruence.
  - apply res_error; congruence.
  - eapply res_apply; [rewrite Hx; eauto| |]; auto.
  - eapply res_fn; [rewrite Hx; eauto| |]; auto.
  - eapply res_folded; [rewrite Hx; eauto| |]; auto.
Qed.
Definition slot_ok (s : slot) (n : nat) : Prop :=
  match s with Infer => True | Next j => j < n | STy t => children_lt t n end.
Lemma push_inv u s : inv u -> pending u = [] -> slot_ok s (length (slots u)) -> inv (fst (push u s)).
Proof.
  intros Hi Hp Hs. constructor.
  - cbn. rewrite Hp. constructor.
  - cbn. rewrite Hp. intros k x [].
  - cbn [push fst slots]. rewrite app_length. cbn. intros i Hl.
    assert (Hold : forall i, i < length (slots u) -> exists t, resolves (fst (push u s)) i t).
    { intros j Hj. destruct (inv_acyc Hi Hj) as [t Ht]. exists t. apply push_resolves; auto. }
    destruct (Nat.eq_dec i (length (slots u))) as [->|]; [|apply Hold; lia].
    assert (Hg : get (fst (push u s)) (length (slots u)) = Some s) by (rewrite get_push, Nat.eqb_refl; auto).
    unfold push in Hold, Hg. cbn [fst] in Hold, Hg.
    destruct s as [|j|[]]; cbn in Hs; try (eexists; econstructor; eauto; fail).
    + destruct (Hold j Hs) as [t Ht]. exists t. eapply res_next; eauto.
    + destruct Hs as [Ha Hb]. destruct (Hold _ Ha) as [ta Hta]. destruct (Hold _ Hb) as [tb Htb]. eexists. eapply res_apply; eauto.
    + destruct Hs as [Ha Hb]. destruct (Hold _ Ha) as [ta Hta]. destruct (Hold _ Hb) as [tb Htb]. eexists. eapply res_fn; eauto.
    + destruct Hs as [Ha Hb]. destruct (Hold _ Ha) as [ta Hta]. destruct (Hold _ Hb) as [tb Htb]. eexists. eapply res_folded; eauto.
Qed.

(** *** taint *)
Lemma get_err u v i : pending u = [] -> v < length (slots u) ->
  get (mkUni (set_slot (slots u) v (STy TyError)) (pending u)) i = if Nat.eqb v i then Some (STy TyError) else get u i.
Proof. intros Hp Hv. unfold get. cbn. rewrite Hp. cbn. apply set_slot_nth; auto. Qed.
Lemma err_resolves u v : pending u = [] -> get u v = Some Infer -> v < length (slots u) ->
  forall i t, resolves u i t -> resolves (mkUni (set_slot (slots u) v (STy TyError)) (pending u)) i (subst (single v TErr) t).
Proof.
  intros Hp Hv Hl i t H. set (u' := mkUni _ _).
  induction H; cbn [subst];
  try (match goal with H : get u ?i = _ |- _ => assert (Hx : v <> i -> get u' i = get u i) by
    (intros; unfold u'; rewrite get_err by auto; destruct (Nat.eqb_spec v i); congruence) end);
  try (match type of Hx with v <> ?i -> _ => assert (Hvi : v <> i) by congruence; specialize (Hx Hvi) end).
  - unfold single. destruct (Nat.eqb_spec i v) as [->|Hne].
    + apply res_error. unfold u'. rewrite get_err, Nat.eqb_refl; auto.
    + apply res_infer. rewrite Hx; auto.
  - eapply res_next; [rewrite Hx; eauto|]. auto.
  - apply res_bool; congruence.
  - apply res_int; congruence.
  - apply res_string; congruence.
  - apply res_named; congruence.
  - apply res_error; congruence.
  - eapply res_apply; [rewrite Hx; eauto| |]; auto.
  - eapply res_fn; [rewrite Hx; eauto| |]; auto.
  - eapply res_folded; [rewrite Hx; eauto| |]; auto.
Qed.
Lemma taint_spec k : forall u i u', inv u -> pending u = [] -> taint k u i = Done u' ->
  pending u' = [] /\ inv u' /\ length (slots u') = length (slots u) /\ exists f, forall j t, resolves u j t -> resolves u' j (subst f t).
Proof.
  induction k as [|k IH]; intros u i u' Hi Hp E; [discriminate|]. cbn in E.
  destruct (nth_error (slots u) i) as [[|j|t]|] eqn:En; try discriminate.
  - injection E as <-. assert (Hl : i < length (slots u)) by (apply nth_error_Some; congruence).
    assert (Hg : get u i = Some Infer) by (unfold get; rewrite Hp; auto).
    split; auto. split; [|split; [cbn; apply set_slot_length|exists (single i TErr); apply err_resolves; auto]].
    constructor; cbn.
    + rewrite Hp. constructor.
    + rewrite Hp. intros ? ? [].
    + rewrite set_slot_length. intros j Hj. destruct (inv_acyc Hi Hj) as [t Ht]. eexists. apply err_resolves; eauto.
  - eauto.
  - injection E as <-. split; auto. split; auto. split; auto. exists TUnknown. intros j t' H. rewrite subst_id. auto.
Qed.
Lemma taint_term u i t : pending u = [] -> resolves u i t -> exists k u', taint k u i = Done u'.
Proof.
  intros Hp H. assert (Hg : forall j, get u j = nth_error (slots u) j) by (intros; unfold get; rewrite Hp; auto).
  induction H; rewrite Hg in H; try (exists 1; cbn; rewrite H; eauto; fail).
  destruct IHresolves as (k & u' & E). exists (S k), u'. cbn. rewrite H. auto.
Qed.

(** *** The checker's states *)
Lemma tc_spec u : inv u -> pending u = [] -> forall k a b u' r t1 t2, resolves u a t1 -> resolves u b t2 ->
  tc_unify k u a b = Done (u', r) ->
  pending u' = [] /\ inv u' /\ length (slots u') = length (slots u) /\
  (r = false -> u' = u) /\
  exists f, (forall i t, resolves u i t -> resolves u' i (subst f t)) /\
    (r = true -> agree (subst f t1) (subst f t2)) /\
    (error_free t1 -> error_free t2 -> forall t, error_free t -> error_free (subst f t)) /\
    (error_free t1 -> error_free t2 -> forall s, subst s t1 = subst s t2 -> r = true /\ forall t, subst s (subst f t) = subst s t).
Proof.
  intros Hi Hp k a b u' r t1 t2 H1 H2 E. unfold tc_unify in E. apply obind_done in E as ([u1 r1] & Eu & E). cbn [fst snd] in E.
  destruct (unify_spec _ Hi H1 H2 Eu) as [f F]. destruct r1; injection E as <- <-.
  - split; [reflexivity|]. split; [apply commit_inv, F|]. split; [unfold commit, commit_in; cbn; rewrite fold_set_length, (uf_slots F); auto|].
    split; [discriminate|]. exists f. split; [|split; [apply F|split; [apply F|apply F]]].
    intros i t H. eapply resolves_ext; [|eapply (uf_res F); eauto]. intros j. symmetry. apply commit_get, F.
  - assert (Er : rollback u1 = u) by (unfold rollback; rewrite (uf_slots F), <- Hp; destruct u; auto).
    rewrite Er. split; auto. split; auto. split; auto. split; auto. exists TUnknown.
    split; [intros; rewrite subst_id; auto|]. split; [discriminate|]. split; [intros; rewrite subst_id; auto|].
    intros Z1 Z2 s Es. destruct (uf_mgu F Z1 Z2 s Es). discriminate.
Qed.

Lemma ureach_inv u : ureach u -> pending u = [] /\ inv u.
Proof.
  induction 1 as [|u H [Hp Hi]|u t H [Hp Hi] Ht|u a b k [u' r] H [Hp Hi] Ha Hb E|u a k u' H [Hp Hi] Ha E].
  - split; auto. constructor; cbn; try constructor; intros; try tauto; lia.
  - split; [cbn; auto|]. apply push_inv; cbn; auto.
  - split; [cbn; auto|]. apply push_inv; cbn; auto.
  - destruct (inv_acyc Hi Ha) as [t1 H1]. destruct (inv_acyc Hi Hb) as [t2 H2].
    destruct (tc_spec Hi Hp _ H1 H2 E) as (P & I & _). auto.
  - destruct (taint_spec _ _ Hi Hp E) as (P & I & _). auto.
Qed.

(** *** to_ir *)
Fixpoint ir_of (t : term) : option irty :=
  match t with
  | TUnknown _ => Some IrInfer
  | TLeaf LBool => Some IrBool
  | TLeaf LInt => Some IrInt
  | TLeaf LString => Some IrString
  | TLeaf (LNamed s) => Some (IrNamed s [])
  | TErr => Some IrError
  | TNode NApply a b => match ir_of a with
                        | Some (IrNamed s x) => match ir_of b with Some tb => Some (IrNamed s (x ++ [tb])) | None => None end
                        | _ => None
                        end
  | TNode NFn a b => match ir_of a, ir_of b with Some x, Some y => Some (IrFn x y) | _, _ => None end
  | TNode NFolded a b => match ir_of a, ir_of b with Some x, Some y => Some (IrFolded x y) | _, _ => None end
  end.

Lemma to_ir_spec : forall n u i t, tsize t <= n -> resolves u i t ->
  exists k0, forall k, k0 <= k -> to_ir k u i = match ir_of t with Some x => Done x | None => Bad end.
Proof.
  induction n as [|n IH]; intros u i t Hn H; [pose proof (tsize_pos t); lia|].
  destruct (norm_term H) as (k1 & nt & E1). pose proof (norm_spec _ _ _ E1) as (j & Ej & Hj).
  destruct (final_spec _ _ _ Ej) as [_ R]. apply R in H.
  assert (Hk : exists k2, forall k, k2 <= k ->
    match nt with
    | None => Done IrInfer
    | Some TyBool => Done IrBool
    | Some TyInt => Done IrInt
    | Some TyString => Done IrString
    | Some (TyNamed s) => Done (IrNamed s [])
    | Some (TyApply a b) =>
      ta <~ to_ir k u a ;;
      match ta with
      | IrNamed s x => tb <~ to_ir k u b ;; Done (IrNamed s (x ++ [tb]))
      | _ => Bad
      end
    | Some (TyFn a b) => ta <~ to_ir k u a ;; tb <~ to_ir k u b ;; Done (IrFn ta tb)
    | Some (TyFolded a b) => ta <~ to_ir k u a ;; tb <~ to_ir k u b ;; Done (IrFolded ta tb)
    | Some TyError => Done IrError
    end = match ir_of t with Some x => Done x | None => Bad end).
  { destruct nt as [nt|].
    - inversion H; subst; rewrite Hj in *; try discriminate;
      repeat match goal with H : Some _ = Some _ |- _ => injection H as H; subst end;
      try (exists 0; reflexivity); cbn in Hn;
      destruct (IH u a ta ltac:(lia) ltac:(assumption)) as (ka & Ea); destruct (IH u b tb ltac:(lia) ltac:(assumption)) as (kb & Eb);
      exists (Nat.max ka kb); intros k Hk; rewrite Ea by lia; cbn [ir_of];
      (destruct (ir_of ta) as [xa|]; cbn [obind]; [|reflexivity]).
      + destruct xa; auto. rewrite Eb by lia. destruct (ir_of tb); auto.
      + rewrite Eb by lia. destruct (ir_of tb); auto.
      + rewrite Eb by lia. destruct (ir_of tb); auto.
    - exists 0. intros k _. rewrite (res_infer_inv H Hj). reflexivity. }
  destruct Hk as (k2 & Hk). exists (S (Nat.max k1 k2)). intros [|k] Hle; [lia|]. cbn [to_ir].
  rewrite (norm_mono _ _ E1) by lia. cbn [obind]. apply Hk. lia.
Qed.

(** *** instantiate *)
Section IrInd.
  Variable P : irty -> Prop.
  Hypothesis H1 : P IrInt.
  Hypothesis H2 : P IrBool.
  Hypothesis H3 : P IrString.
  Hypothesis H4 : forall s args, Forall P args -> P (IrNamed s args).
  Hypothesis H5 : forall a b, P a -> P b -> P (IrFn a b).
  Hypothesis H6 : P IrError.
  Hypothesis H7 : P IrInfer.
  Hypothesis H8 : forall a b, P a -> P b -> P (IrFolded a b).
  Fixpoint irty_ind' (t : irty) : P t :=
    match t with
    | IrInt => H1 | IrBool => H2 | IrString => H3
    | IrNamed s args => H4 s ((fix all (l : list irty) : Forall P l :=
        match l with [] => Forall_nil _ | x :: r => Forall_cons _ (irty_ind' x) (all r) end) args)
    | IrFn a b => H5 (irty_ind' a) (irty_ind' b)
    | IrError => H6 | IrInfer => H7
    | IrFolded a b => H8 (irty_ind' a) (irty_ind' b)
    end.
End IrInd.

Definition ext (u u' : uni) : Prop := length (slots u) <= length (slots u') /\ forall j t, resolves u j t -> resolves u' j t.
Lemma ext_refl u : ext u u.
Proof. split; auto. Qed.
Lemma ext_trans u u' u'' : ext u u' -> ext u' u'' -> ext u u''.
Proof. intros [A B] [C D]. split; [lia|auto]. Qed.
Lemma alloc_ext u t u' i : ureach u -> allocate u t = (u', i) -> children_lt t (length (slots u)) ->
  ureach u' /\ ext u u' /\ i < length (slots u') /\ get u' i = Some (STy t).
Proof.
  intros H E Hc. destruct (ureach_inv H) as [Hp Hi]. unfold allocate in E.
  assert (Eu : u' = fst (push u (STy t)) /\ i = length (slots u)) by (unfold push in *; injection E as <- <-; auto).
  destruct Eu as [-> ->]. split; [apply (ur_alloc _ H Hc)|]. split; [split|split].
  - cbn. rewrite app_length; lia.
  - intros; apply push_resolves; auto.
  - cbn. rewrite app_length; cbn; lia.
  - rewrite get_push, Nat.eqb_refl; auto.
Qed.

Definition vars_ok (u : uni) (vars : list (nat * nat)) (vs : list (nat * term)) : Prop :=
  Forall2 (fun p q => fst p = fst q /\ snd p < length (slots u) /\ resolves u (snd p) (snd q)) vars vs.
Lemma vars_ext u u' vars vs : ext u u' -> vars_ok u vars vs -> vars_ok u' vars vs.
Proof.
  intros [E1 E2] H. induction H as [|p q l l' (A & B & C) H IH]; constructor; auto. split; auto. split; auto. lia.
Qed.
Lemma vars_assoc u vars vs s : vars_ok u vars vs -> match assoc s vars, assoc s vs with
  | Some i, Some t => i < length (slots u) /\ resolves u i t | None, None => True | _, _ => False end.
Proof.
  induction 1 as [|[a i] [b t] vars vs (A & B & C) H IH]; cbn; auto. cbn in *. subst b.
  destruct (Nat.eqb a s); auto.
Qed.

Lemma instantiate_spec t : forall u vars vs u' i, ureach u -> vars_ok u vars vs -> no_infer t = true ->
  instantiate u t vars = (u', i) ->
  ureach u' /\ ext u u' /\ i < length (slots u') /\ resolves u' i (scheme vs t).
Proof.
  induction t as [| | |s args IH|a b IHa IHb| | |a b IHa IHb] using irty_ind'; intros u vars vs u' i H Hv Hn E; cbn [instantiate] in E.
  - destruct (alloc_ext H E I) as (A & B & C & D). split; auto. split; auto. split; auto. apply res_int; auto.
  - destruct (alloc_ext H E I) as (A & B & C & D). split; auto. split; auto. split; auto. apply res_bool; auto.
  - destruct (alloc_ext H E I) as (A & B & C & D). split; auto. split; auto. split; auto. apply res_string; auto.
  - destruct (match assoc s vars with Some i => (u, i) | None => allocate u (TyNamed s) end) as [u0 n0] eqn:E0.
    set (h0 := match assoc s vs with Some x => x | None => TLeaf (LNamed s) end).
    assert (G0 : ureach u0 /\ ext u u0 /\ n0 < length (slots u0) /\ resolves u0 n0 h0).
    { pose proof (vars_assoc s Hv) as Ha. unfold h0. destruct (assoc s vars), (assoc s vs); try tauto.
      - injection E0 as <- <-. split; auto. split; [apply ext_refl|]. auto.
      - destruct (alloc_ext H E0 I) as (A & B & C & D). split; auto. split; auto. split; auto. apply res_named; auto. }
    destruct G0 as (R0 & X0 & L0 & S0). cbn [scheme]. fold h0. clearbody h0. clear E0. cbn in Hn.
    assert (Hv0 : vars_ok u0 vars vs) by (eapply vars_ext; eauto).
    revert u0 n0 h0 R0 X0 L0 S0 Hv0 E. induction IH as [|a args Ha IH IHl]; intros u0 n0 h0 R0 X0 L0 S0 Hv0 E.
    + injection E as <- <-. auto.
    + cbn in Hn. apply andb_true_iff in Hn as [Hn1 Hn2].
      destruct (instantiate u0 a vars) as [u1 i1] eqn:E1.
      destruct (Ha _ _ _ _ _ R0 Hv0 Hn1 E1) as (A & B & C & D).
      destruct (allocate u1 (TyApply n0 i1)) as [u2 t'] eqn:E2.
      destruct (alloc_ext A E2) as (A' & B' & C' & D'); [cbn; destruct B; lia|].
      cbn [map fold_left]. eapply IHl; [exact Hn2|exact A'|eapply ext_trans; [|exact B']; eapply ext_trans; [exact X0|exact B]|exact C'| |eapply vars_ext; [exact B'|]; eapply vars_ext; [exact B|exact Hv0]|exact E].
      eapply res_apply; [exact D'| |]; apply B'; auto. apply B; auto.
  - cbn in Hn. apply andb_true_iff in Hn as [Hn1 Hn2].
    destruct (instantiate u a vars) as [u1 i1] eqn:E1. destruct (instantiate u1 b vars) as [u2 i2] eqn:E2.
    destruct (IHa _ _ _ _ _ H Hv Hn1 E1) as (A1 & B1 & C1 & D1).
    destruct (IHb _ _ _ _ _ A1 (vars_ext B1 Hv) Hn2 E2) as (A2 & B2 & C2 & D2).
    destruct (alloc_ext A2 E) as (A & B & C & D); [cbn; destruct B2; lia|].
    split; auto. split; [eapply ext_trans; [exact B1|]; eapply ext_trans; eauto|]. split; auto.
    cbn [scheme]. eapply res_fn; [exact D| |]; apply B; auto. apply B2; auto.
  - destruct (alloc_ext H E I) as (A & B & C & D). split; auto. split; auto. split; auto. apply res_error; auto.
  - discriminate.
  - cbn in Hn. apply andb_true_iff in Hn as [Hn1 Hn2].
    destruct (instantiate u a vars) as [u1 i1] eqn:E1. destruct (instantiate u1 b vars) as [u2 i2] eqn:E2.
    destruct (IHa _ _ _ _ _ H Hv Hn1 E1) as (A1 & B1 & C1 & D1).
    destruct (IHb _ _ _ _ _ A1 (vars_ext B1 Hv) Hn2 E2) as (A2 & B2 & C2 & D2).
    destruct (alloc_ext A2 E) as (A & B & C & D); [cbn; destruct B2; lia|].
    split; auto. split; [eapply ext_trans; [exact B1|]; eapply ext_trans; eauto|]. split; auto.
    cbn [scheme]. eapply res_folded; [exact D| |]; apply B; auto. apply B2; auto.
Qed.

(** Types that already agree always unify. *)
Lemma unify_agree k : forall u i1 i2 u' b t1 t2, inv u -> resolves u i1 t1 -> resolves u i2 t2 -> agree t1 t2 ->
  unify k u i1 i2 = Done (u', b) -> b = true.
Proof.
  induction k as [|k IH]; intros u i1 i2 u' b t1 t2 Hi H1 H2 HA E; [discriminate|]. cbn [unify] in E.
  apply obind_done in E as (f1 & E1 & E). apply obind_done in E as (f2 & E2 & E).
  destruct (final_spec _ _ _ E1) as [F1 R1]. destruct (final_spec _ _ _ E2) as [F2 R2].
  apply R1 in H1. apply R2 in H2. clear R1 R2 E1 E2.
  destruct (Nat.eqb_spec f1 f2) as [<-|Hne]. { injection E as <- <-. auto. }
  apply obind_done in E as (n1 & En1 & E). apply obind_done in E as (n2 & En2 & E).
  pose proof (norm_final _ _ _ En1 F1) as N1. pose proof (norm_final _ _ _ En2 F2) as N2. clear En1 En2 F1 F2.
  assert (Hboth : forall n a1 a2 b1 b2 ta1 ta2 tb1 tb2, t1 = TNode n ta1 ta2 -> t2 = TNode n tb1 tb2 ->
     resolves u a1 ta1 -> resolves u a2 ta2 -> resolves u b1 tb1 -> resolves u b2 tb2 ->
     (r <~ unify k u a1 b1;; (if snd r then unify k (fst r) a2 b2 else Done r)) = Done (u', b) -> b = true).
  { intros n a1 a2 b1 b2 ta1 ta2 tb1 tb2 -> -> Ha1 Ha2 Hb1 Hb2 E'. inversion HA; subst.
    apply obind_done in E' as ([u1 r1] & Eu1 & E'). cbn [fst snd] in E'.
    destruct (unify_spec _ Hi Ha1 Hb1 Eu1) as [g1 G1].
    assert (r1 = true) by (eapply IH; [exact Hi|exact Ha1|exact Hb1| |exact Eu1]; auto). subst r1.
    eapply IH; [exact (uf_inv G1)|exact (uf_res G1 Ha2)|exact (uf_res G1 Hb2)| |exact E'].
    apply agree_subst. auto. }
  destruct n1 as [n1|].
  - destruct n2 as [n2|].
    + destruct n1; destruct n2; inversion H1; subst; rewrite N1 in *; try discriminate;
      repeat match goal with H : Some _ = Some _ |- _ => injection H as H; subst end;
      inversion H2; subst; rewrite N2 in *; try discriminate;
      repeat match goal with H : Some _ = Some _ |- _ => injection H as H; subst end;
      try (eapply Hboth; eauto; fail); inversion HA; subst; injection E as <- <-; auto using Nat.eqb_refl.
    + rewrite (res_infer_inv H2 N2) in *. assert (t1 = TErr).
      { inversion HA; subst; auto. inversion H1; subst; congruence. }
      subst t1.
      assert (E' : (o <~ occurs k u f2 f1;; (if o then Done (u, false) else Done (bind u f2 f1, true))) = Done (u', b))
        by (destruct n1; exact E).
      apply obind_done in E' as (o & Eo & E'). pose proof (occurs_spec _ _ Eo N2 H1) as Ho. destruct o.
      * destruct (proj1 Ho eq_refl).
      * injection E' as <- <-. auto.
  - rewrite (res_infer_inv H1 N1) in *.
    apply obind_done in E as (o & Eo & E). pose proof (occurs_spec _ _ Eo N1 H2) as Ho. destruct o.
    + exfalso. pose proof (proj1 Ho eq_refl) as HO. inversion HA; subst; auto.
      inversion H2; subst; try congruence. destruct n2; congruence.
    + injection E as <- <-. auto.
Qed.
