(** What navigation finds: proofs for C53. *)
From Verif Require Import TypeckProg ResolveFacts ResolveProofs ResolveLex NavSpec NavProofs.
Set Implicit Arguments.

Notation c0 := (mkScope [] [] []).
Notation a0 := (mkAround [] [] []).
Definition idefs (i : nitem) := ui_defs (ni_unit i).
Definition irefs (i : nitem) := ui_refs (ni_unit i).

Section Run.
  Variable sy : nat -> sym.
  (** Everything compiled. *)
  Fixpoint run (at_ : nat) (ps : list placed) (c : scope) (n : nat) : nav :=
    match ps with
    | [] => mkNav [] n
    | p :: r =>
      let '(t, s) := resolve_item sy (pl_item p) c (mkRstate n [] [] true) in
      let v := run (pl_end p) r (add_defs c (st_defs s)) (st_next s) in
      mkNav (mkNitem at_ (pl_end p) (mkUnitItem t (st_defs s) (st_refs s) (st_ok s)) :: nv_items v) (nv_next v)
    end.
  Fixpoint end_of (at_ : nat) (ps : list placed) : nat := match ps with [] => at_ | p :: r => end_of (pl_end p) r end.
  Definition scope_of (c : scope) (l : list nitem) : scope := fold_left (fun c i => add_defs c (idefs i)) l c.
  Lemma run_app ps1 : forall at_ ps2 c n,
    let v := run at_ ps1 c n in let w := run (end_of at_ ps1) ps2 (scope_of c (nv_items v)) (nv_next v) in
    run at_ (ps1 ++ ps2) c n = mkNav (nv_items v ++ nv_items w) (nv_next w).
  Proof.
    induction ps1 as [|p ps1 IH]; intros at_ ps2 c n; cbn [app run end_of].
    - cbn. destruct (run at_ ps2 c n). auto.
    - destruct (resolve_item sy (pl_item p) c _) as [t s]. cbn. rewrite IH. cbn. auto.
  Qed.
  Lemma run_length ps : forall at_ c n, length (nv_items (run at_ ps c n)) = length ps.
  Proof. induction ps as [|p ps IH]; intros; cbn; auto. destruct (resolve_item sy (pl_item p) c _) as [t s]. cbn. auto. Qed.
  Lemma end_app a : forall at_ b, end_of at_ (a ++ b) = end_of (end_of at_ a) b. Proof. induction a; cbn; auto. Qed.
  Lemma run_end ps : forall at_ c n, compiled_length (nv_items (run at_ ps c n)) = match ps with [] => 0 | _ => end_of at_ ps end.
  Proof.
    destruct ps as [|q ps] using rev_ind; intros; auto. clear IHps. rewrite run_app. cbn [nv_items]. unfold compiled_length. rewrite rev_app_distr. cbn [run].
    destruct (resolve_item sy (pl_item q) _ _) as [t s]. cbn. destruct (ps ++ [q]) eqn:E; [destruct ps; discriminate|]. rewrite <- E, end_app. auto.
  Qed.
  Lemma run_end0 ps c n : compiled_length (nv_items (run 0 ps c n)) = end_of 0 ps.
  Proof. rewrite run_end. destruct ps; auto. Qed.
  Lemma from_run off : forall ps at_ c n, exists ps1 ps2, ps = ps1 ++ ps2 /\ compile_from sy off ps at_ c n = run at_ ps1 c n /\ (ps2 = [] \/ off <= end_of at_ ps1).
  Proof.
    induction ps as [|p ps IH]; intros at_ c n; cbn [compile_from].
    - exists [], []. auto.
    - destruct (Nat.leb_spec off at_) as [Le|Gt]; [exists [], (p :: ps); auto|]. destruct (resolve_item sy (pl_item p) c _) as [t s] eqn:E.
      destruct (IH (pl_end p) (add_defs c (st_defs s)) (st_next s)) as (ps1 & ps2 & -> & R & D). exists (p :: ps1), ps2. split; auto. split; auto. cbn [run]. rewrite E, R. auto.
  Qed.
  (** The items compiled are the first items of the unit. *)
  Definition reached (ps : list placed) (v : nav) (ps1 : list placed) : Prop := (exists ps2, ps = ps1 ++ ps2) /\ v = run 0 ps1 c0 0.
  Lemma up_to_reached ps v ps1 off : reached ps v ps1 ->
    exists ps1', reached ps (nav_up_to sy ps off v) ps1' /\ (ps1' = ps \/ off <= end_of 0 ps1').
  Proof.
    intros [(ps2 & E) ->]. unfold nav_up_to. rewrite run_end0. destruct (Nat.leb_spec off (end_of 0 ps1)) as [Le|Gt].
    - exists ps1. split; auto. split; eauto.
    - rewrite run_length. replace (skipn (length ps1) ps) with ps2 by (rewrite E, skipn_app, skipn_all, Nat.sub_diag; auto).
      match goal with |- context [compile_from sy off ps2 ?a ?c ?n] => destruct (@from_run off ps2 a c n) as (p3 & p4 & -> & R & D) end.
      rewrite R. exists (ps1 ++ p3). split; [split|].
      + exists p4. rewrite <- app_assoc. auto.
      + rewrite run_app. auto.
      + rewrite end_app. destruct D as [->|D]; auto. left. rewrite E, app_nil_r. auto.
  Qed.
  Definition nav_after (ps : list placed) (offs : list nat) : nav := fold_left (fun v o => nav_up_to sy ps o v) offs nav_new.
  Lemma after_reached ps offs : exists ps1, reached ps (nav_after ps offs) ps1.
  Proof.
    unfold nav_after. assert (H : exists ps1, reached ps nav_new ps1) by (exists []; split; [exists ps|]; auto). revert H. generalize nav_new.
    induction offs as [|o offs IH]; intros v (ps1 & H); cbn [fold_left]; [eauto|]. apply IH. destruct (@up_to_reached ps v ps1 o H) as (ps1' & H' & _). eauto.
  Qed.
  Lemma end_rev ps : match rev ps with p :: _ => pl_end p | [] => 0 end = end_of 0 ps.
  Proof. destruct ps as [|q ps] using rev_ind; auto. rewrite rev_app_distr, end_app. auto. Qed.

  (** Facts about the items. *)
  Definition owns (L : list nitem) : rel := fun s n => exists d, In d (flat_map idefs L) /\ d_sym d = s /\ d_name d = n.
  Definition item_ok (D : rel) (i : nitem) (f : found) : Prop := map d_name (idefs i) = snd f /\ Forall2 (use_ok D) (irefs i) (fst f).
  Lemma run_names : forall ps at_ c a n, keys c a -> forall D, sim c a D -> all_in D (flat_map idefs (nv_items (run at_ ps c n))) ->
    Forall2 (item_ok D) (nv_items (run at_ ps c n)) (names_of_items (map pl_item ps) a).
  Proof.
    induction ps as [|p ps IH]; intros at_ c a n K D S Q; cbn [run map names_of_items] in *; [constructor|].
    destruct (resolve_item sy (pl_item p) c _) as [t s] eqn:E. cbn [nv_items] in *. apply (@nav_item sy _ _ _ K) in E as (ds & M & L).
    pose proof (m_defs M) as Ed. cbn in Ed. rewrite Ed in *. cbn [flat_map] in Q. unfold idefs at 1 in Q. cbn in Q. apply Forall_app in Q as [Q1 Q2]. constructor.
    - split; [unfold idefs; cbn; apply (m_names M)|]. destruct (m_refs M) as (rf & Er & H). cbn in Er. unfold irefs. cbn. rewrite Er. auto.
    - apply IH; auto; apply L; auto.
  Qed.
  Lemma run_owns ps : Forall2 (item_ok (owns (nv_items (run 0 ps c0 0)))) (nv_items (run 0 ps c0 0)) (names_of ps).
  Proof.
    apply run_names; [repeat split|repeat split; constructor|]. apply Forall_forall. intros d Hd. exists d. auto.
  Qed.
  Lemma run_made : forall ps at_ c n, let v := run at_ ps c n in n <= nv_next v /\ made sy n (nv_next v) (map kd (flat_map idefs (nv_items v))).
  Proof.
    induction ps as [|p ps IH]; intros at_ c n; cbn [run]; [split; [auto|apply made_nil]|].
    destruct (resolve_item sy (pl_item p) c _) as [t s] eqn:E. cbn [nv_items nv_next]. apply resolve_item_ok in E as (ds & S0 & _).
    pose proof (sp_defs S0) as Ed. cbn in Ed. pose proof (sp_next S0) as Le. cbn in Le. destruct (IH (pl_end p) (add_defs c (st_defs s)) (st_next s)) as [Le' M]. split; [lia|].
    cbn [flat_map]. unfold idefs at 1. cbn [ni_unit ui_defs]. rewrite map_app. eapply made_app; [exact Le|exact Le'| |exact M]. rewrite Ed. apply (sp_made S0).
  Qed.
  Hypothesis J : forall a b, sy a = sy b -> a = b.
  Lemma run_distinct ps : NoDup (map d_sym (flat_map idefs (nv_items (run 0 ps c0 0)))).
  Proof.
    destruct (run_made ps 0 c0 0) as [_ (is & N & _ & E)]. rewrite map_map in E. cbn in E. change (NoDup (map (fun x => d_sym x) (flat_map idefs (nv_items (run 0 ps c0 0))))). rewrite E. apply FinFun.Injective_map_NoDup; auto.
  Qed.
  (** References to local definitions of another item do not exist. *)
  Definition shown_by (l : list rdef) (c : scope) : Prop := forall p, In p (entries c) -> exists d, In d l /\ d_vis d <> Local /\ d_sym d = snd p.
  Lemma shown_more l ds c : shown_by l c -> shown_by (l ++ ds) (add_defs c ds).
  Proof.
    revert l c. induction ds as [|d ds IH]; intros l c H; [rewrite app_nil_r; auto|]. change (add_defs c (d :: ds)) with (add_defs (add_def c d) ds).
    replace (l ++ d :: ds) with ((l ++ [d]) ++ ds) by (rewrite <- app_assoc; auto). apply IH. intros p Hp.
    assert (Q : In p (entries c) \/ (d_vis d <> Local /\ p = (id_text (d_name d), d_sym d))).
    { unfold add_def in Hp. destruct (d_vis d); auto; destruct (d_kind d); unfold entries in *; cbn in Hp; rewrite ?in_app_iff in *; cbn in Hp; rewrite ?in_app_iff in *; cbn in Hp;
        repeat match goal with H : _ \/ _ |- _ => destruct H as [H|H] end; try (subst p; right; split; [discriminate|reflexivity]); auto. }
    destruct Q as [Q|[V ->]].
    - destruct (H _ Q) as (e & He & V). exists e. rewrite in_app_iff. auto.
    - exists d. rewrite in_app_iff. cbn. auto.
  Qed.
  Lemma run_refs : forall ps at_ c n l, shown_by l c -> Forall (fun i => forall r, In r (irefs i) ->
    (exists d, In d (idefs i) /\ d_sym d = r_sym r) \/ exists d, In d (l ++ flat_map idefs (nv_items (run at_ ps c n))) /\ d_vis d <> Local /\ d_sym d = r_sym r) (nv_items (run at_ ps c n)).
  Proof.
    induction ps as [|p ps IH]; intros at_ c n l H; cbn [run]; [constructor|].
    destruct (resolve_item sy (pl_item p) c _) as [t s] eqn:E. cbn [nv_items]. apply resolve_item_ok in E as (ds & S0 & _).
    pose proof (sp_defs S0) as Ed. cbn in Ed. constructor.
    - intros r Hr. unfold irefs in Hr. cbn in Hr. destruct (sp_refs S0) as (rf & Er & F). cbn in Er. rewrite Er in Hr. rewrite Forall_forall in F. destruct (F _ Hr) as [Q|(d & Hd & Q)].
      + right. destruct (H _ Q) as (d & Hd & V & Es). exists d. rewrite in_app_iff. auto.
      + left. exists d. unfold idefs. cbn. rewrite Ed. split; auto. congruence.
    - specialize (IH (pl_end p) (add_defs c (st_defs s)) (st_next s) (l ++ st_defs s) (@shown_more l (st_defs s) c H)). eapply Forall_impl; [|exact IH].
      intros i Hi r Hr. destruct (Hi r Hr) as [Q|(d & Hd & Q)]; auto. right. exists d. split; auto. cbn [flat_map]. unfold idefs at 1. cbn [ni_unit ui_defs]. rewrite app_assoc. auto.
  Qed.
  Lemma nodup_sym (l : list rdef) d e : NoDup (map d_sym l) -> In d l -> In e l -> d_sym d = d_sym e -> d = e.
  Proof.
    induction l as [|x l IH]; [intros _ []|]. cbn. intros N [->|Hd] [->|He] E; auto; inversion_clear N as [|? ? N1 N2]; auto.
    - exfalso. apply N1. rewrite E. apply in_map. auto.
    - exfalso. apply N1. rewrite <- E. apply in_map. auto.
  Qed.
  Lemma local_refs ps i r d : let L := nv_items (run 0 ps c0 0) in In i L -> In r (irefs i) -> In d (flat_map idefs L) -> d_sym d = r_sym r -> d_vis d = Local -> In d (idefs i).
  Proof.
    cbn zeta. intros Hi Hr Hd E V. assert (F := @run_refs ps 0 c0 0 [] (fun p (H : In p []) => match H with end)). rewrite Forall_forall in F. cbn [app] in F.
    pose proof (run_distinct ps) as N. destruct (F _ Hi _ Hr) as [(e & He & Q)|(e & He & Ve & Q)].
    - replace d with e; auto. eapply nodup_sym; eauto; [apply in_flat_map; eauto|congruence].
    - exfalso. apply Ve. replace e with d; auto. eapply nodup_sym; eauto. congruence.
  Qed.
End Run.

(** ** Spans *)
Fixpoint spans (at_ : nat) (ps : list placed) (L : list nitem) : Prop :=
  match ps, L with
  | [], [] => True
  | p :: ps', i :: L' => ni_start i = at_ /\ ni_end i = pl_end p /\ spans (pl_end p) ps' L'
  | _, _ => False
  end.
Lemma run_spans sy : forall ps at_ c n, spans at_ ps (nv_items (run sy at_ ps c n)).
Proof. induction ps as [|p ps IH]; intros; cbn [run]; [exact I|]. destruct (resolve_item sy (pl_item p) c _) as [t s]. cbn. auto. Qed.
Lemma before_none {A} (g : nitem -> option A) pos : forall ps at_ fs L, in_items at_ ps fs -> spans at_ ps L -> pos < at_ ->
  first_some (fun i => if inside i pos then g i else None) L = None.
Proof.
  induction ps as [|p ps IH]; intros at_ [|f fs] [|i L] H S Lt; try contradiction; auto. destruct H as (H1 & H2 & H3), S as (S1 & S2 & S3). cbn.
  unfold inside. rewrite S1, S2. destruct (Nat.ltb_spec pos at_); [|lia]. cbn. eapply IH; eauto. lia.
Qed.
(** The item at a position. *)
Lemma item_at pos : forall ps at_ fs L, in_items at_ ps fs -> spans at_ ps L ->
  (exists i f, In (i, f) (combine L fs) /\ (forall n, In n (map fst (fst f) ++ snd f) -> at_ <= id_at n) /\
     forall A (g : nitem -> option A), first_some (fun i => if inside i pos then g i else None) L = g i) \/
  ((forall A (g : nitem -> option A), first_some (fun i => if inside i pos then g i else None) L = None) /\ (pos < at_ \/ end_of at_ ps <= pos)).
Proof.
  induction ps as [|p ps IH]; intros at_ [|f fs] [|i L] H S; try contradiction.
  - right. split; auto. cbn. lia.
  - destruct H as (H1 & H2 & H3), S as (S1 & S2 & S3). destruct (inside i pos) eqn:E.
    + left. exists i, f. split; [left; auto|]. split; [intros n Hn; apply (H2 n Hn)|]. intros A g. cbn. rewrite E. destruct (g i); auto.
      eapply before_none; eauto. unfold inside in E. rewrite S1, S2 in E. apply negb_true_iff, orb_false_iff in E as [E1 E2]. apply Nat.leb_gt in E2. lia.
    + destruct (IH _ _ _ H3 S3) as [(j & k & Hj & B & G)|(G & P)].
      * left. exists j, k. split; [right; auto|]. split; [intros n Hn; specialize (B _ Hn); lia|]. intros A g. cbn. rewrite E. auto.
      * right. split; [intros A g; cbn; rewrite E; auto|]. cbn. unfold inside in E. rewrite S1, S2 in E. apply negb_false_iff, orb_true_iff in E as [E|E].
        -- apply Nat.ltb_lt in E. auto.
        -- apply Nat.leb_le in E. lia.
Qed.
(** A name in an item is found in that item. *)
Lemma name_at pos n : on n pos = true -> forall ps at_ fs L f, in_items at_ ps fs -> spans at_ ps L -> In f fs -> In n (map fst (fst f) ++ snd f) ->
  exists i, In (i, f) (combine L fs) /\ forall A (g : nitem -> option A), first_some (fun i => if inside i pos then g i else None) L = g i.
Proof.
  intros On. unfold on in On. apply andb_true_iff in On as [O1 O2]. apply Nat.leb_le in O1, O2.
  induction ps as [|p ps IH]; intros at_ [|f fs] [|i L] f' H S Hf Hn; try contradiction.
  destruct H as (H1 & H2 & H3), S as (S1 & S2 & S3). destruct Hf as [->|Hf].
  - exists i. split; [left; auto|]. destruct (H2 _ Hn). intros A g. cbn. unfold inside. rewrite S1, S2.
    destruct (Nat.ltb_spec pos at_); [lia|]. destruct (Nat.leb_spec (pl_end p) pos); [lia|]. cbn. destruct (g i); auto. eapply before_none; eauto.
  - destruct (IH _ _ _ _ H3 S3 Hf Hn) as (j & Hj & G). exists j. split; [right; auto|]. intros A g. cbn.
    assert (I : inside i pos = false); [|rewrite I; auto]. unfold inside. rewrite S1, S2. destruct (Nat.leb_spec (pl_end p) pos); [rewrite orb_true_r; auto|].
    exfalso. clear - H3 Hf Hn O1 H. assert (Q : forall at_ ps fs f, in_items at_ ps fs -> In f fs -> In n (map fst (fst f) ++ snd f) -> at_ <= id_at n).
    { intros a ps0. revert a. induction ps0 as [|q qs IH]; intros a [|g gs] f0 HI Hf0 Hn0; try contradiction. destruct HI as (A1 & A2 & A3).
      destruct Hf0 as [->|Hf0]; [apply (A2 _ Hn0)|]. specialize (IH _ _ _ A3 Hf0 Hn0). lia. }
    specialize (Q _ _ _ _ H3 Hf Hn). lia.
Qed.
