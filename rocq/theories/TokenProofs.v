(** What the resolver records has the roles of the specification: proofs for C56 and C42. *)
From Verif Require Import TypeckProg ResolveFacts ResolveProofs ResolveLex NavSpec NavProofs NavUnits TokenSpec.
Set Implicit Arguments.

Definition role_of (k : dkind) : role :=
  match k with DValue _ _ => RValue | DCtor _ _ => RCtor | DType _ CtorOpaque => RTypeVariable | DType _ (CtorList _) => RType end.
Definition exported (v : vis) : bool := match v with Export => true | _ => false end.
Definition def_role (d : rdef) : definition := (d_name d, (role_of (d_kind d), exported (d_vis d))).
(** A part of the run that adds definitions with these roles. *)
Definition rl (s s' : rstate) (l : list definition) : Prop := exists ds, st_defs s' = st_defs s ++ ds /\ map def_role ds = l.
Lemma rl_same s s' : st_defs s' = st_defs s -> rl s s' [].
Proof. intros E. exists []. rewrite app_nil_r. auto. Qed.
Lemma rl_trans s s1 s2 a b : rl s s1 a -> rl s1 s2 b -> rl s s2 (a ++ b).
Proof. intros (d1 & E1 & A) (d2 & E2 & B). exists (d1 ++ d2). rewrite E2, E1, app_assoc, map_app, A, B. auto. Qed.
Lemma rl_m P s s' o : m P s s' [] o -> rl s s' [].
Proof. intros M. apply rl_same. rewrite (m_defs M). apply app_nil_r. Qed.
Lemma rl_inner P s s' ds o r : m P s s' ds o -> Forall (fun d => role_of (d_kind d) = r /\ d_vis d = Local) ds -> rl s s' (inner r (snd o)).
Proof.
  intros M F. exists ds. split; [apply (m_defs M)|]. unfold inner. rewrite <- (m_names M), map_map. apply map_ext_in. intros d Hd.
  rewrite Forall_forall in F. destruct (F _ Hd) as [A B]. unfold def_role. rewrite A, B. auto.
Qed.
Definition only (r : role) (s s' : rstate) : Prop := exists ds, st_defs s' = st_defs s ++ ds /\ Forall (fun d => role_of (d_kind d) = r /\ d_vis d = Local) ds.
Lemma only_same r s s' : st_defs s' = st_defs s -> only r s s'.
Proof. intros E. exists []. rewrite app_nil_r. auto. Qed.
Lemma only_trans r s s1 s2 : only r s s1 -> only r s1 s2 -> only r s s2.
Proof. intros (d1 & E1 & A) (d2 & E2 & B). exists (d1 ++ d2). rewrite E2, E1, app_assoc. split; auto. apply Forall_app. auto. Qed.
Lemma only_m P r s s' ds o : only r s s' -> m P s s' ds o -> Forall (fun d => role_of (d_kind d) = r /\ d_vis d = Local) ds.
Proof. intros (d & E & F) M. replace ds with d; auto. rewrite (m_defs M) in E. apply app_inv_head in E. auto. Qed.

Section Roles.
  Variable sy : nat -> sym.
  Ltac rdef' := match goal with H : record_def _ _ = (_, _) |- _ => unfold record_def in H; injection H as <- <- end.
  Lemma only_def r s s1 x k v n u s2 : fresh sy s = (x, s1) -> record_def (def_new x k v n) s1 = (u, s2) -> role_of k = r -> v = Local -> only r s s2.
  Proof. unfold fresh, record_def. intros E F <- ->. injection E as <- <-. injection F as <- <-. eexists. cbn. split; [reflexivity|]. constructor; auto. Qed.
  Lemma only_type_vars : forall t c vars s r c' vars' s', resolve_type_vars sy t c vars s = (r, c', vars', s') -> only RTypeVariable s s'.
  Proof.
    induction t using xty_ind'; intros c vars s r c' vars' s' E; cbn [resolve_type_vars] in *.
    1-3: unfold rret in E; injection E as <- <- <- <-; apply only_same; auto.
    - apply rbind_inv in E as ([[a' c1] v1] & s1 & Ea & E). apply rbind_inv in E as ([[b' c2] v2] & s2 & Eb & E). unfold rret in E. injection E as <- <- <- <-.
      eapply only_trans; eauto.
    - apply rbind_inv in E as ([[o c1] v1] & s1 & Eo & E). apply rbind_inv in E as ([[args' c2] v2] & s2 & Ea & E). unfold rret in E. injection E as <- <- <- <-.
      eapply only_trans with (s1 := s1).
      + destruct (lookup_text (sc_types c) (id_text n)) as [x|]; [rb; apply only_same; auto|]. destruct (lower _ && _); [|rb; apply only_same; auto].
        apply rbind_inv in Eo as (y0 & s0 & Ef & Eo). apply rbind_inv in Eo as (u & s3 & Ed & Eo). unfold rret in Eo. injection Eo as <- <- <- <-. eapply only_def; eauto.
      + clear Eo. revert c1 v1 s1 args' Ea. induction H as [|t args Ht _ IH]; intros c1 v1 s1 args' Ea.
        * unfold rret in Ea. injection Ea as <- <- <- <-. apply only_same; auto.
        * apply rbind_inv in Ea as ([[t' c3] v3] & s3 & Et & Ea). apply rbind_inv in Ea as ([[r' c4] v4] & s4 & Er & Ea). unfold rret in Ea. injection Ea as <- -> -> ->.
          eapply only_trans; eauto.
    - eauto.
  Qed.
  Lemma only_vars : forall xs c s l c' s', resolve_vars sy xs c s = (l, c', s') -> only RValue s s'.
  Proof.
    induction xs as [|x xs IH]; intros c s l c' s' E; cbn [resolve_vars] in *; [unfold rret in E; injection E as <- <- <-; apply only_same; auto|].
    apply rbind_inv in E as (y & s1 & Ef & E). apply rbind_inv in E as (u & s2 & Ed & E). apply rbind_inv in E as ([l' c1] & s3 & Er & E). unfold rret in E. injection E as <- <- <-.
    eapply only_trans; [eapply only_def; eauto; reflexivity|eauto].
  Qed.
  Lemma only_params : forall xs c s l c' s', resolve_params sy xs c s = (l, c', s') -> only RTypeVariable s s'.
  Proof.
    induction xs as [|x xs IH]; intros c s l c' s' E; cbn [resolve_params] in *; [unfold rret in E; injection E as <- <- <-; apply only_same; auto|].
    apply rbind_inv in E as (y & s1 & Ef & E). apply rbind_inv in E as (u & s2 & Ed & E). apply rbind_inv in E as ([l' c1] & s3 & Er & E). unfold rret in E. injection E as <- <- <-.
    eapply only_trans; [eapply only_def; eauto; reflexivity|eauto].
  Qed.
  Lemma role_ann ann c a (K : keys c a) s x c' s' : resolve_ann sy ann c s = (x, c', s') -> rl s s' (ann_roles ann a).
  Proof.
    intros E. destruct (nav_ann sy ann K _ E) as (ds & M & _). eapply rl_inner; [exact M|]. eapply only_m; [|exact M]. destruct ann as [t|]; cbn [resolve_ann] in E.
    - apply rbind_inv in E as ([[t' c1] vars] & s1 & Et & E). unfold rret in E. injection E as <- <- <-. eapply only_type_vars; eauto.
    - unfold rret in E. injection E as <- <- <-. apply only_same; auto.
  Qed.
  Lemma role_def s s1 x k v n u s2 : fresh sy s = (x, s1) -> record_def (def_new x k v n) s1 = (u, s2) -> rl s s2 [(n, (role_of k, exported v))].
  Proof. unfold fresh, record_def. intros E F. injection E as <- <-. injection F as <- <-. eexists. cbn. split; [reflexivity|]. auto. Qed.
  Lemma role_expr : forall e c a (K : keys c a) s r s', resolve_expr sy e c s = (r, s') -> rl s s' (expr_roles e a).
  Proof.
    induction e using xexpr_ind'; intros c a' K s r s' E; cbn [resolve_expr expr_roles] in *.
    - destruct (lookup_text _ _) as [x|]; rb; apply rl_same; auto.
    - rb. eapply rl_trans; eauto.
    - rb. eapply rl_trans; eauto.
    - rb. eapply rl_trans; eauto.
    - apply rbind_inv in E as ([an c1] & s1 & Ea & E). apply rbind_inv in E as (v' & s2 & Ev & E). apply rbind_inv in E as (x & s3 & Ef & E).
      apply rbind_inv in E as (u & s4 & Ed & E). apply rbind_inv in E as (e' & s5 & Ee & E). rb. cbn [fst snd] in *.
      destruct (nav_ann sy _ K _ Ea) as (d1 & A & L1). eapply rl_trans; [eapply role_ann; eauto|]. eapply rl_trans; [eapply IHe1; eauto; apply L1|].
      eapply rl_trans; [|eapply IHe2; [apply keys_value; exact K|exact Ee]]. assert (Q : role_of (ann_def an) = RValue) by (destruct an as [[? ?]|]; auto). pose proof (role_def Ef Ed) as R. rewrite Q in R. exact R.
    - apply rbind_inv in E as (d' & s1 & Ed & E). apply rbind_inv in E as (cs' & s2 & Ec & E). rb. eapply rl_trans; [eauto|].
      clear - H Ec K. revert s1 cs' Ec. induction H as [|[[n xs] b] cs Hb _ IH]; intros s1 cs' Ec; [rb; apply rl_same; auto|].
      apply rbind_inv in Ec as (k & s3 & Ek & Ec). apply rbind_inv in Ec as ([vs c1] & s4 & Ev & Ec). apply rbind_inv in Ec as (b' & s5 & Eb & Ec).
      apply rbind_inv in Ec as (r' & s6 & Er & Ec). rb. cbn [fst snd] in *. destruct (nav_vars sy _ K _ Ev) as (d2 & B & L).
      assert (Q : rl s1 s3 []) by (apply rl_same; unfold resolve_ctor in Ek; destruct (lookup_text _ _); rb; auto).
      eapply (rl_trans Q). eapply rl_trans; [exact (rl_inner B (only_m (only_vars _ _ _ Ev) B))|]. eapply rl_trans; [eapply Hb; [|exact Eb]; apply L|]. eapply IH; eauto.
    - rb. eapply rl_trans; eauto. eapply rl_trans; eauto.
    - rb. apply rl_same; auto.
    - rb. apply rl_same; auto.
    - rb. apply rl_same; auto.
    - apply rbind_inv in E as (x & s3 & Ef & E). apply rbind_inv in E as (u & s4 & Ed & E). apply rbind_inv in E as (e' & s5 & Ee & E). rb.
      eapply rl_trans; [exact (role_def Ef Ed)|]. eapply IHe; [apply keys_value; exact K|exact Ee].
    - rb. eauto.
    - rb. apply rl_same; auto.
  Qed.
  Lemma role_item i c a (K : keys c a) s r s' : resolve_item sy i c s = (r, s') -> rl s s' (item_roles i a).
  Proof.
    destruct i as [n export ec ps cs|n export ann body]; cbn [resolve_item item_roles]; intros E.
    - apply rbind_inv in E as (x & s1 & Ex & E). apply rbind_inv in E as ([ps' c1] & s2 & Ep & E). apply rbind_inv in E as (cs' & s3 & Ec & E).
      apply rbind_inv in E as (u & s4 & Ed & E). rb. cbn [fst snd] in *. unfold fresh in Ex. injection Ex as <- <-.
      destruct (nav_params sy _ K _ Ep) as (d1 & A & L). pose proof (rl_inner A (only_m (only_params _ _ _ Ep) A)) as R1.
      destruct (@nav_cases sy (if ec then Export else Module) (sy (st_next s)) ps' c1 _ (proj1 L) _ [] [] _ _ _ eq_refl Ec) as (d2 & B & V).
      assert (R1' : rl s s2 (inner RTypeVariable ps)) by (destruct R1 as (ds & E1 & E2); exists ds; auto).
      eapply rl_trans; [exact R1'|]. eapply rl_trans with (s1 := s3).
      + exists d2. split; [apply (m_defs B)|]. unfold case_names. rewrite <- case_binders with (a := fold_left (fun a p => with_type p a) ps a), <- (m_names B), map_map.
        apply map_ext_in. intros d Hd. rewrite Forall_forall in V. destruct (V _ Hd) as (V1 & k & f & V2). unfold def_role. rewrite V1, V2. destruct ec; auto.
      + unfold record_def in Ed. injection Ed as <- <-. eexists. cbn. split; [reflexivity|]. cbn. destruct export; auto.
    - apply rbind_inv in E as ([an c1] & s1 & Ea & E). apply rbind_inv in E as (x & s2 & Ex & E). apply rbind_inv in E as (u & s3 & Ed & E).
      apply rbind_inv in E as (b & s4 & Eb & E). rb. cbn [fst snd] in *. destruct (nav_ann sy _ K _ Ea) as (d1 & A & L).
      eapply rl_trans; [eapply role_ann; eauto|]. eapply rl_trans.
      + pose proof (role_def Ex Ed) as R. assert (Q : role_of (ann_def an) = RValue) by (destruct an as [[? ?]|]; auto). rewrite Q in R. destruct export; exact R.
      + destruct body as [bi|e]; [rb; apply rl_same; auto|]. apply rbind_inv in Eb as (e' & s5 & Ee & Eb). rb. eapply role_expr; [apply L|exact Ee].
  Qed.
  Lemma run_roles : forall ps at_ c a n, keys c a ->
    Forall2 (fun i l => map def_role (idefs i) = l) (nv_items (run sy at_ ps c n)) (roles_of_items (map pl_item ps) a).
  Proof.
    induction ps as [|p ps IH]; intros at_ c a n K; cbn [run map roles_of_items]; [constructor|].
    destruct (resolve_item sy (pl_item p) c _) as [t s] eqn:E. cbn [nv_items]. pose proof (role_item _ K _ E) as (ds & Ed & R). cbn in Ed. constructor.
    - unfold idefs. cbn. rewrite Ed. exact R.
    - apply IH. apply (@nav_item sy _ _ _ K) in E as (ds' & M & L). pose proof (m_defs M) as Ed'. cbn in Ed'. rewrite Ed'. apply L.
  Qed.
  Lemma run_item_roles ps : Forall2 (fun i l => map def_role (idefs i) = l) (nv_items (run sy 0 ps c0 0)) (item_definitions ps).
  Proof. apply run_roles. repeat split. Qed.
  Lemma run_definitions ps : map def_role (flat_map idefs (nv_items (run sy 0 ps c0 0))) = definitions ps.
  Proof. unfold definitions. induction (run_item_roles ps) as [|i l L M H _ IH]; auto. cbn. rewrite map_app, H, IH. auto. Qed.
End Roles.
