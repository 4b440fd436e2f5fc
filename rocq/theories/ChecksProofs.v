(** Proofs about the static checks and result printing (Checks.v). *)
From Verif Require Import Eval EvalFacts Vm ArithProofs Checks.
Set Implicit Arguments.

(** ** Number literals *)
Lemma numeral_snoc s c : numeral_value (s ++ [c]) = (10 * numeral_value s + (c - 48))%N.
Proof. unfold numeral_value. rewrite fold_left_app. reflexivity. Qed.

Lemma numeral_app_ge s t : (numeral_value s <= numeral_value (s ++ t))%N.
Proof.
  induction t as [|c t IH] using rev_ind; [rewrite app_nil_r; lia|].
  rewrite app_assoc, numeral_snoc. lia.
Qed.

Lemma to_digit10_spec c : match to_digit10 c with
                          | Some d => is_digit c /\ d = (c - 48)%N
                          | None => ~ is_digit c end.
Proof.
  unfold to_digit10, is_digit. destruct (N.leb_spec 48 c), (N.leb_spec c 57); simpl; lia.
Qed.

Lemma parse_loop_spec s : forall pre, Forall is_digit pre -> (numeral_value pre < W64)%N ->
  match parse_loop (numeral_value pre) s with
  | PNum n => Forall is_digit (pre ++ s) /\ n = numeral_value (pre ++ s) /\ (n < W64)%N
  | PErr InvalidDigit => exists a c b, s = a ++ c :: b /\ Forall is_digit a /\ ~ is_digit c /\
                                       (numeral_value (pre ++ a) < W64)%N
  | PErr Overflow => exists a b, s = a ++ b /\ Forall is_digit a /\ (W64 <= numeral_value (pre ++ a))%N
  end.
Proof.
  induction s as [|c s IH]; intros pre Hd Hv; cbn [parse_loop].
  - rewrite app_nil_r. auto.
  - pose proof (to_digit10_spec c) as Hc. destruct (to_digit10 c) as [d|].
    + destruct Hc as [Hc ->]. pose proof (numeral_snoc pre c) as E.
      destruct (N.ltb_spec (numeral_value pre * 10) W64); [destruct (N.ltb_spec (numeral_value pre * 10 + (c - 48)) W64)|].
      * specialize (IH (pre ++ [c])). rewrite E in IH.
        replace (numeral_value pre * 10 + (c - 48))%N with (10 * numeral_value pre + (c - 48))%N by lia.
        assert (Hd' : Forall is_digit (pre ++ [c])) by (apply Forall_app; auto).
        specialize (IH Hd'). rewrite <- E in *. rewrite <- app_assoc in IH. cbn [app] in IH.
        assert (Hlt : (numeral_value (pre ++ [c]) < W64)%N) by lia. specialize (IH Hlt).
        destruct (parse_loop _ s) as [n|[|]]; auto.
        -- destruct IH as (a & b & -> & Ha & Hb). exists (c :: a), b. split; [reflexivity|]. split; [constructor; auto|].
           rewrite <- app_assoc in Hb. exact Hb.
        -- destruct IH as (a & c' & b & -> & Ha & Hc' & Hb). exists (c :: a), c', b. split; [reflexivity|].
           split; [constructor; auto|]. split; auto. rewrite <- app_assoc in Hb. exact Hb.
      * exists [c], s. split; [reflexivity|]. split; [auto|]. rewrite E. lia.
      * exists [c], s. split; [reflexivity|]. split; [auto|]. rewrite E. lia.
    + exists [], c, s. rewrite app_nil_r. auto.
Qed.

Lemma number_spec s : s <> [] ->
  match parse_loop 0 s with
  | PNum n => Forall is_digit s /\ n = numeral_value s /\ (n < W64)%N
  | PErr InvalidDigit => exists a c b, s = a ++ c :: b /\ Forall is_digit a /\ ~ is_digit c /\ (numeral_value a < W64)%N
  | PErr Overflow => exists a b, s = a ++ b /\ Forall is_digit a /\ (W64 <= numeral_value a)%N
  end.
Proof. intros _. apply (@parse_loop_spec s []); [constructor|reflexivity]. Qed.

Lemma number_accept s : s <> [] ->
  (check_number s = None <-> Forall is_digit s /\ (numeral_value s < 2 ^ 64)%N).
Proof.
  intros Hs. pose proof (number_spec Hs) as H. unfold check_number, parse_int.
  destruct s as [|c0 s0]; [congruence|]. remember (c0 :: s0) as s. destruct (parse_loop 0 s) as [n|[|]].
  - destruct H as (H1 & -> & H2). split; auto.
  - split; [discriminate|]. intros [_ Hv]. destruct H as (a & b & -> & _ & Hb). pose proof (numeral_app_ge a b).
    unfold W64 in *. lia.
  - split; [discriminate|]. intros [Hd _]. destruct H as (a & c & b & -> & _ & Hc & _).
    apply Forall_app in Hd as [_ Hd]. inversion Hd; contradiction.
Qed.

Lemma number_value s : s <> [] -> check_number s = None -> rust_parse_u64 s = Some (numeral_value s).
Proof.
  intros Hs Hc. pose proof (proj1 (number_accept Hs) Hc) as [Hd Hv].
  pose proof (number_spec Hs) as H. unfold check_number, parse_int in Hc. unfold rust_parse_u64.
  destruct s as [|c0 s0]; [congruence|].
  assert (E : match c0 with 43%N => s0 | _ => c0 :: s0 end = c0 :: s0).
  { inversion Hd as [|? ? Hc0 _]; subst. unfold is_digit in Hc0.
    destruct (N.eq_dec c0 43) as [->|]; [lia|]. destruct c0 as [|p]; auto.
    do 6 (destruct p as [p|p|]; auto; try congruence). }
  rewrite E. destruct (parse_loop 0 (c0 :: s0)) as [n|e]; [|discriminate].
  destruct H as (_ & -> & _). reflexivity.
Qed.

Lemma number_errors s : s <> [] ->
  (check_number s = Some InvalidDigit <->
     exists a c b, s = a ++ c :: b /\ Forall is_digit a /\ ~ is_digit c /\ (numeral_value a < 2 ^ 64)%N) /\
  (check_number s = Some Overflow <->
     exists a b, s = a ++ b /\ Forall is_digit a /\ (2 ^ 64 <= numeral_value a)%N).
Proof.
  intros Hs. pose proof (number_spec Hs) as H.
  assert (Hx : forall a c b a' b', a ++ c :: b = a' ++ b' -> Forall is_digit a' -> ~ is_digit c ->
              (numeral_value a < 2 ^ 64)%N -> (2 ^ 64 <= numeral_value a')%N -> False).
  { intros a c b a' b' E Hd Hc Hlt Hge.
    apply app_eq_app in E as (l & [[E1 E2]|[E1 E2]]).
    - subst a. pose proof (numeral_app_ge a' l). lia.
    - destruct l as [|x l]; [rewrite app_nil_r in E1; subst; lia|].
      cbn [app] in E2. injection E2 as <- _. subst a'. apply Forall_app in Hd as [_ Hd]. inversion Hd; contradiction. }
  unfold check_number, parse_int.
  destruct s as [|c0 s0]; [congruence|]. remember (c0 :: s0) as s. destruct (parse_loop 0 s) as [n|[|]].
  - destruct H as (H1 & -> & H2). unfold W64 in *. split; (split; [discriminate|]).
    + intros (a & c & b & -> & _ & Hc & _). apply Forall_app in H1 as [_ Hd]. inversion Hd; contradiction.
    + intros (a & b & -> & _ & Hb). pose proof (numeral_app_ge a b). lia.
  - split; [split; [discriminate|]|split; auto].
    intros (a & c & b & E & Ha & Hc & Hv). destruct H as (a' & b' & E' & Ha' & Hb'). exfalso.
    eapply (Hx a c b a' b'); eauto. congruence.
  - split; [split; auto|split; [discriminate|]].
    intros (a' & b' & E' & Ha' & Hb'). destruct H as (a & c & b & E & Ha & Hc & Hv). exfalso.
    eapply (Hx a c b a' b'); eauto. congruence.
Qed.

(** ** Match checking *)
Lemma existsb_In c l : existsb (Nat.eqb c) l = true <-> In c l.
Proof.
  rewrite existsb_exists. split.
  - intros (x & Hx & E). apply Nat.eqb_eq in E. subst; auto.
  - intros H. exists c. split; auto. apply Nat.eqb_refl.
Qed.
Lemma existsb_nIn c l : existsb (Nat.eqb c) l = false <-> ~ In c l.
Proof. rewrite <- existsb_In. destruct (existsb _ l); split; congruence. Qed.

Lemma check_cases_spec all cs : forall missing i,
  (forall x, In x missing -> In x all) ->
  exists ds, check_cases all missing i (map Some cs) =
             (ds, Some (filter (fun x => negb (existsb (Nat.eqb x) cs)) missing)) /\
    (forall d, In d ds <-> exists j c, d = DUnreachable (i + j) /\ nth_error cs j = Some c /\ In c all /\
                                       (~ In c missing \/ In c (firstn j cs))).
Proof.
  induction cs as [|c cs IH]; intros missing i Hm; cbn [map check_cases].
  - exists []. split.
    + f_equal. f_equal. induction missing as [|x m IHm]; [reflexivity|]. cbn [filter existsb negb]. f_equal. apply IHm.
      intros; apply Hm; right; auto.
    + intros d; split; [intros []|]. intros (j & c & _ & E & _). destruct j; discriminate E.
  - destruct (existsb (Nat.eqb c) all) eqn:Ea.
    + apply existsb_In in Ea.
      set (m' := filter (fun x => negb (Nat.eqb x c)) missing).
      assert (Hm'in : forall x, In x m' <-> In x missing /\ x <> c).
      { intros x. unfold m'. rewrite filter_In. rewrite negb_true_iff, Nat.eqb_neq. tauto. }
      destruct (IH m' (S i)) as (ds & E & Hds).
      { intros x Hx. apply Hm. apply Hm'in in Hx. tauto. }
      rewrite E.
      assert (Ef : filter (fun x => negb (existsb (Nat.eqb x) cs)) m' =
                   filter (fun x => negb (existsb (Nat.eqb x) (c :: cs))) missing).
      { unfold m'. clear. induction missing as [|x m IHm]; [reflexivity|]. cbn [filter existsb].
        destruct (Nat.eqb_spec x c); cbn [negb orb].
        - exact IHm.
        - cbn [filter]. destruct (negb _); cbn [app]; rewrite ?IHm; reflexivity. }
      rewrite Ef. eexists. split; [reflexivity|].
      intros d. rewrite in_app_iff, Hds. split.
      * intros [Hd|(j & c' & -> & Hj & Hc' & Hor)].
        -- destruct (existsb (Nat.eqb c) missing) eqn:Em; [destruct Hd|].
           apply existsb_nIn in Em. destruct Hd as [<-|[]]. exists 0, c. rewrite Nat.add_0_r. auto.
        -- exists (S j), c'. split; [f_equal; lia|]. split; auto. split; auto.
           cbn [firstn]. destruct (Nat.eq_dec c c') as [->|Hne]; [right; left; auto|].
           destruct Hor as [Hn|Hf]; [|right; right; auto]. left. intros Hin. apply Hn. apply Hm'in. auto.
      * intros (j & c' & -> & Hj & Hc' & Hor). destruct j as [|j].
        -- cbn in Hj. injection Hj as <-. left. cbn [firstn] in Hor. destruct Hor as [Hn|[]].
           apply existsb_nIn in Hn. rewrite Hn. left. f_equal. lia.
        -- right. exists j, c'. split; [f_equal; lia|]. split; auto. split; auto.
           cbn [firstn] in Hor. destruct Hor as [Hn|[->|Hf]]; auto.
           ++ left. rewrite Hm'in. tauto.
           ++ left. rewrite Hm'in. tauto.
    + apply existsb_nIn in Ea. destruct (IH missing (S i) Hm) as (ds & E & Hds). rewrite E.
      assert (Ef : filter (fun x => negb (existsb (Nat.eqb x) cs)) missing =
                   filter (fun x => negb (existsb (Nat.eqb x) (c :: cs))) missing).
      { apply filter_ext_in. intros x Hx. cbn [existsb]. destruct (Nat.eqb_spec x c); auto.
        subst. exfalso. auto. }
      rewrite <- Ef. eexists. split; [reflexivity|]. intros d. rewrite Hds. split.
      * intros (j & c' & -> & Hj & Hc' & Hor). exists (S j), c'. split; [f_equal; lia|]. split; auto. split; auto.
        cbn [firstn]. destruct Hor; auto. right; right; auto.
      * intros (j & c' & -> & Hj & Hc' & Hor). destruct j as [|j].
        -- cbn in Hj. injection Hj as <-. contradiction.
        -- exists j, c'. split; [f_equal; lia|]. split; auto. split; auto. cbn [firstn] in Hor.
           destruct Hor as [Hn|[->|Hf]]; auto; contradiction.
Qed.

(** The scrutinee's type is the named type [s] (possibly under a [fold]). *)
Definition matches_on (t : mty) (s : name) : Prop := t = MNamed s \/ t = MFolded (MNamed s).

Lemma check_match_reports defs t s all cs :
  matches_on t s -> defs s = Some (CtorList all) ->
  exists ds, check_match defs (Some t) (map Some cs) = Some ds /\
    (forall d, In d ds <->
       (exists i c, d = DUnreachable i /\ nth_error cs i = Some c /\ In c all /\ In c (firstn i cs)) \/
       (d = DMissing (filter (fun c => negb (existsb (Nat.eqb c) cs)) all) /\ exists c, In c all /\ ~ In c cs)).
Proof.
  intros Ht Hd. unfold check_match.
  assert (E : match_symbol t = inl s) by (destruct Ht as [-> | ->]; reflexivity). rewrite E, Hd.
  destruct (@check_cases_spec all cs all 0 (fun x H => H)) as (ds & Ec & Hds). rewrite Ec.
  eexists; split; [reflexivity|]. intros d. rewrite in_app_iff, Hds.
  set (ms := filter (fun c => negb (existsb (Nat.eqb c) cs)) all).
  assert (Hms : (exists c, In c all /\ ~ In c cs) <-> ms <> []).
  { split.
    - intros (c & Hc & Hn) E0. assert (In c ms); [|rewrite E0 in *; auto].
      apply filter_In. split; auto. apply existsb_nIn in Hn. rewrite Hn. reflexivity.
    - intros Hn. destruct ms as [|c ms'] eqn:Em; [congruence|].
      assert (In c ms) by (rewrite Em; left; auto). apply filter_In in H as [H1 H2].
      exists c. split; auto. apply existsb_nIn. apply negb_true_iff. exact H2. }
  split.
  - intros [(j & c & -> & Hj & Hc & [Hn|Hf])|Hin]; [contradiction|left; exists j, c; auto|].
    right. destruct ms as [|c ms'] eqn:Em; [destruct Hin|]. destruct Hin as [<-|[]]. split; auto. apply Hms. discriminate.
  - intros [(j & c & -> & Hj & Hc & Hf)|[-> Hex]]; [left; exists j, c; auto 6|].
    right. apply Hms in Hex. destruct ms; [congruence|]. left; reflexivity.
Qed.

Lemma check_match_clean defs t s all cs :
  matches_on t s -> defs s = Some (CtorList all) ->
  check_match defs (Some t) (map Some cs) = Some [] ->
  forall c, In c all -> count_occ Nat.eq_dec cs c = 1.
Proof.
  intros Ht Hd Hc c Hin. destruct (@check_match_reports defs t s all cs Ht Hd) as (ds & E & Hds). rewrite Hc in E. injection E as <-.
  assert (Hin' : In c cs).
  { destruct (in_dec Nat.eq_dec c cs); auto. exfalso.
    apply (Hds (DMissing (filter (fun c => negb (existsb (Nat.eqb c) cs)) all))). right. eauto. }
  apply in_split in Hin' as (l1 & l2 & ->).
  assert (H1 : ~ In c l1).
  { intros H. apply (Hds (DUnreachable (length l1))). left. exists (length l1), c. split; auto.
    rewrite nth_error_app2, Nat.sub_diag by lia. split; [reflexivity|]. split; auto.
    rewrite firstn_app, Nat.sub_diag, firstn_all, app_nil_r. auto. }
  assert (H2 : ~ In c l2).
  { intros H. apply in_split in H as (l3 & l4 & ->). apply (Hds (DUnreachable (length (l1 ++ c :: l3)))).
    left. exists (length (l1 ++ c :: l3)), c. split; auto. rewrite (app_comm_cons), app_assoc.
    rewrite nth_error_app2, Nat.sub_diag by lia. split; [reflexivity|]. split; auto.
    rewrite firstn_app, Nat.sub_diag, firstn_all, app_nil_r. apply in_app_iff. right; left; auto. }
  rewrite count_occ_app, count_occ_cons_eq by auto.
  rewrite (proj1 (count_occ_not_In Nat.eq_dec l1 c) H1), (proj1 (count_occ_not_In Nat.eq_dec l2 c) H2). reflexivity.
Qed.

Lemma match_eval ord n en d brs c fs l1 bs b l2 :
  eval_o ord n en d = Ok (VComp c fs) ->
  brs = l1 ++ ((c, bs), b) :: l2 -> ~ In c (map (fun br => fst (fst br)) l1) ->
  length bs = length fs ->
  eval_o ord n en (EMatch d brs) = eval_o ord n (add_all en bs fs) b.
Proof.
  intros Hd -> Hn Hl.
  assert (E : forall l, ~ In c (map (fun br => fst (fst br)) l) ->
     (fix find (l : list (name * list name * expr)) : res value :=
             match l with
             | [] => Panic
             | ((c', bs), b) :: r =>
               if Nat.eqb c' c then
                 if length bs =? length fs then eval_o ord n (add_all en bs fs) b else Panic
               else find r
             end) (l ++ (c, bs, b) :: l2) = eval_o ord n (add_all en bs fs) b).
  { induction l as [|[[c' bs'] b'] l IH]; intros H; cbn [app].
    - rewrite Nat.eqb_refl, Hl, Nat.eqb_refl. reflexivity.
    - cbn [map fst In] in H. destruct (Nat.eqb_spec c' c); [exfalso; auto|]. apply IH. tauto. }
  specialize (E l1 Hn).
  destruct n as [|n]; cbn [eval_o] in *; rewrite Hd; cbn [bind]; exact E.
Qed.

Lemma count_one_split (brs : list (name * list name * expr)) c :
  count_occ Nat.eq_dec (map (fun br => fst (fst br)) brs) c = 1 ->
  exists l1 bs b l2, brs = l1 ++ ((c, bs), b) :: l2 /\ ~ In c (map (fun br => fst (fst br)) l1) /\
                     ~ In c (map (fun br => fst (fst br)) l2).
Proof.
  intros H. assert (Hin : In c (map (fun br => fst (fst br)) brs)).
  { apply (count_occ_In Nat.eq_dec). lia. }
  apply in_map_iff in Hin as ([[c' bs] b] & Ec & Hin). cbn in Ec. subst c'.
  apply in_split in Hin as (l1 & l2 & ->). exists l1, bs, b, l2. split; auto.
  rewrite map_app, count_occ_app in H. cbn [map fst] in H. rewrite count_occ_cons_eq in H by auto.
  split; apply (count_occ_not_In Nat.eq_dec); lia.
Qed.

Lemma exhaustive_runs defs t s all brs ord n en d c fs :
  matches_on t s -> defs s = Some (CtorList all) ->
  check_match defs (Some t) (map (fun br => Some (fst (fst br))) brs) = Some [] ->
  eval_o ord n en d = Ok (VComp c fs) -> In c all ->
  exists l1 bs b l2, brs = l1 ++ ((c, bs), b) :: l2 /\
    ~ In c (map (fun br => fst (fst br)) l1) /\ ~ In c (map (fun br => fst (fst br)) l2) /\
    (length bs = length fs -> eval_o ord n en (EMatch d brs) = eval_o ord n (add_all en bs fs) b).
Proof.
  intros Ht Hd Hc He Hin. rewrite <- map_map with (f := fun br => fst (fst br)) (g := Some) in Hc.
  pose proof (@check_match_clean _ _ _ _ _ Ht Hd Hc c Hin) as H1.
  destruct (@count_one_split _ _ H1) as (l1 & bs & b & l2 & -> & Hn1 & Hn2).
  exists l1, bs, b, l2. repeat split; auto. intros Hl. eapply match_eval; eauto.
Qed.

(** ** Unused definitions *)
(** A symbol is mentioned: referenced, a type variable, or exported. *)
Definition mentioned (items : list uitem) (x : name) : Prop :=
  exists it, In it items /\
    (In x (ui_refs it) \/
     exists d, In d (ui_defs it) /\ ud_sym d = x /\ (ud_kind d = KType true \/ ud_export d = true)).
(** [c] is a constructor defined in the same item as the type [t]. *)
Definition ctor_of (items : list uitem) (c t : name) : Prop :=
  exists it d, In it items /\ In d (ui_defs it) /\ ud_kind d = KCtor /\ ud_sym d = c /\ item_type it = Some t.


Lemma used_in items x : In x (flat_map item_used items) <-> mentioned items x.
Proof.
  unfold mentioned. rewrite in_flat_map. split; intros (it & Hit & H); exists it; (split; [exact Hit|]).
  - unfold item_used in H. apply in_app_iff in H as [H|H]; [auto|]. right.
    apply in_flat_map in H as (d & Hd & H). exists d. split; auto.
    apply in_app_iff in H as [H|H].
    + destruct (ud_kind d) as [| |[|]|]; try destruct H as [|[]]; auto; destruct H.
    + destruct (ud_export d); [destruct H as [|[]]; auto|destruct H].
  - unfold item_used. apply in_app_iff. destruct H as [H|(d & Hd & <- & Hor)]; [auto|]. right.
    apply in_flat_map. exists d. split; auto. apply in_app_iff.
    destruct Hor as [-> | ->]; [left; left; auto|right; left; auto].
Qed.

Lemma deps_in items c t : In (c, t) (flat_map item_deps items) <-> ctor_of items c t.
Proof.
  unfold ctor_of. rewrite in_flat_map. split.
  - intros (it & Hit & H). unfold item_deps in H. destruct (item_type it) as [t'|] eqn:Et; [|destruct H].
    apply in_flat_map in H as (d & Hd & H). exists it, d. destruct (ud_kind d) eqn:Ek; try destruct H.
    + injection H as <- <-. auto.
    + destruct H.
  - intros (it & d & Hit & Hd & Ek & <- & Et). exists it. split; auto. unfold item_deps. rewrite Et.
    apply in_flat_map. exists d. rewrite Ek. split; auto. left; auto.
Qed.

Lemma lookup_fun {A} (l : list (name * A)) x v :
  (forall x v w, In (x, v) l -> In (x, w) l -> v = w) -> (lookup x l = Some v <-> In (x, v) l).
Proof.
  induction l as [|[y w] l IH]; intros Hf; cbn [lookup].
  - split; [discriminate|intros []].
  - destruct (Nat.eqb_spec x y) as [->|Hne].
    + split; [intros E; injection E as <-; left; auto|]. intros Hin. f_equal. eapply Hf; [left; reflexivity|exact Hin].
    + rewrite IH by (intros; eapply Hf; right; eassumption). split; [right; auto|]. intros [E|]; auto. congruence.
Qed.

Lemma unused_spec items d :
  (* every constructor symbol belongs to one item *)
  (forall c t t', ctor_of items c t -> ctor_of items c t' -> t = t') ->
  (In d (unused items) <->
   (exists it, In it items /\ In d (ui_defs it)) /\ ud_kind d <> KModule /\ hd_error (ud_name d) <> Some 95%N /\
   ~ mentioned items (ud_sym d) /\
   ~ (exists c, ctor_of items c (ud_sym d) /\ mentioned items c)).
Proof.
  intros Hf. unfold unused. rewrite filter_In, in_flat_map.
  assert (Hu : existsb (Nat.eqb (ud_sym d)) (used_set items) = true <->
               mentioned items (ud_sym d) \/ (exists c, ctor_of items c (ud_sym d) /\ mentioned items c)).
  { rewrite existsb_In. unfold used_set. rewrite in_app_iff, used_in. apply or_iff_compat_l.
    rewrite in_flat_map. split.
    - intros (c & Hc & H). exists c. rewrite used_in in Hc. split; auto.
      destruct (lookup c _) as [t|] eqn:El; [|destruct H]. destruct H as [->|[]].
      apply lookup_fun in El; [apply in_rev, deps_in in El; auto|].
      intros x v w Hv Hw. apply in_rev, deps_in in Hv. apply in_rev, deps_in in Hw. eauto.
    - intros (c & Hc & Hm). exists c. rewrite used_in. split; auto.
      assert (El : lookup c (rev (flat_map item_deps items)) = Some (ud_sym d)).
      { apply lookup_fun; [|apply -> in_rev; apply deps_in; auto].
        intros x v w Hv Hw. apply in_rev, deps_in in Hv. apply in_rev, deps_in in Hw. eauto. }
      rewrite El. left; auto. }
  assert (Hn : (match ud_name d with c :: _ => N.eqb c 95 | [] => false end) = true <-> hd_error (ud_name d) = Some 95%N).
  { destruct (ud_name d) as [|c r]; cbn; [split; discriminate|]. destruct (N.eqb_spec c 95); split; congruence. }
  set (u := existsb (Nat.eqb (ud_sym d)) (used_set items)) in *.
  set (w := match ud_name d with c :: _ => N.eqb c 95 | [] => false end) in *.
  clearbody u w. destruct u, w, (ud_kind d) eqn:Ek; cbn [negb andb]; intuition (try discriminate; try congruence).
Qed.

(** ** main *)
Lemma is_main_spec d : is_main d = true <-> vd_export d = Some main_text.
Proof.
  unfold is_main. destruct (vd_export d) as [n|]; [|split; discriminate].
  destruct (list_eq_dec _ _ _); split; congruence.
Qed.
Lemma is_main_ty_spec t : is_main_ty t = true <-> t = TFn [TString] TString.
Proof.
  split; [|intros ->; reflexivity]. destruct t as [| | | | |ps o|]; try discriminate.
  destruct ps as [|p ps]; try discriminate. destruct p, ps; try discriminate; destruct o; try discriminate. reflexivity.
Qed.

Lemma scan_main_app acc a b :
  scan_main acc (a ++ b) = match scan_main acc a with
                           | MainInvalid => MainInvalid
                           | MainName n => scan_main (Some n) b
                           | MainNone => scan_main None b end.
Proof.
  revert acc. induction a as [|d a IH]; intros acc; cbn [app scan_main].
  - destruct acc; reflexivity.
  - destruct (is_main d); [destruct (is_main_ty _)|]; auto.
Qed.

Lemma scan_none acc ds : (forall d, In d ds -> is_main d = false) ->
  scan_main acc ds = match acc with Some n => MainName n | None => MainNone end.
Proof.
  induction ds as [|d ds IH]; intros H; cbn [scan_main]; [reflexivity|].
  rewrite (H d) by (left; auto). apply IH. intros; apply H; right; auto.
Qed.

Lemma scan_some acc ds n : scan_main acc ds = MainName n ->
  (forall d, In d ds -> is_main d = true -> is_main_ty (vd_ty d) = true).
Proof.
  revert acc. induction ds as [|d ds IH]; intros acc E x Hx Hm; [destruct Hx|]. cbn [scan_main] in E.
  destruct Hx as [->|Hx].
  - rewrite Hm in E. destruct (is_main_ty (vd_ty x)); [reflexivity|discriminate].
  - destruct (is_main d); [destruct (is_main_ty (vd_ty d)); [|discriminate]|]; eapply IH; eauto.
Qed.
Lemma scan_all acc ds : (forall d, In d ds -> is_main d = true -> is_main_ty (vd_ty d) = true) ->
  scan_main acc ds <> MainInvalid.
Proof.
  revert acc. induction ds as [|d ds IH]; intros acc H; cbn [scan_main]; [destruct acc; discriminate|].
  destruct (is_main d) eqn:E; [rewrite (H d) by (auto; left; auto)|]; apply IH; intros; apply H; auto; right; auto.
Qed.

Definition exported_main (d : valdef) : Prop := vd_export d = Some main_text.

Lemma find_main_spec p :
  (forall n, find_main p = MainName n <->
     (forall d, In d (p_defs p) -> exported_main d -> vd_ty d = TFn [TString] TString) /\
     exists l1 d l2, p_defs p = l1 ++ d :: l2 /\ exported_main d /\ vd_name d = n /\
                     forall d', In d' l1 -> ~ exported_main d') /\
  (find_main p = MainNone <-> forall d, In d (p_defs p) -> ~ exported_main d) /\
  (find_main p = MainInvalid <-> exists d, In d (p_defs p) /\ exported_main d /\ vd_ty d <> TFn [TString] TString).
Proof.
  unfold find_main, exported_main.
  assert (Hns : forall l, (forall d', In d' l -> vd_export d' <> Some main_text) -> forall d, In d (rev l) -> is_main d = false).
  { intros l H d Hd. apply in_rev in Hd. specialize (H d Hd). rewrite <- is_main_spec in H. destruct (is_main d); congruence. }
  assert (Hcase : (forall d, In d (p_defs p) -> vd_export d <> Some main_text) \/
                  exists l1 d l2, p_defs p = l1 ++ d :: l2 /\ vd_export d = Some main_text /\
                                  forall d', In d' l1 -> vd_export d' <> Some main_text).
  { generalize (p_defs p). induction l as [|d l IH]; [left; intros ? []|].
    destruct (is_main d) eqn:Em.
    - apply is_main_spec in Em. right. exists [], d, l. split; auto; split; auto.
    - assert (Hn : vd_export d <> Some main_text) by (rewrite <- is_main_spec; congruence).
      destruct IH as [IH|(l1 & d0 & l2 & -> & H1 & H2)].
      + left. intros x [<-|Hx]; auto.
      + right. exists (d :: l1), d0, l2. split; auto. split; auto. intros x [<-|Hx]; auto. }
  assert (Hdec : forall d, {vd_ty d = TFn [TString] TString} + {vd_ty d <> TFn [TString] TString}).
  { intros d. destruct (is_main_ty (vd_ty d)) eqn:E; [left; apply is_main_ty_spec; auto|right].
    rewrite <- is_main_ty_spec. congruence. }
  assert (Hall : scan_main None (rev (p_defs p)) <> MainInvalid <->
                 (forall d, In d (p_defs p) -> vd_export d = Some main_text -> vd_ty d = TFn [TString] TString)).
  { split.
    - intros H d Hd Hm. destruct (Hdec d) as [|Hn]; auto. exfalso. apply H. clear H.
      apply in_split in Hd as (l1 & l2 & E). rewrite E, rev_app_distr. cbn [rev]. rewrite <- app_assoc.
      rewrite scan_main_app. apply is_main_spec in Hm. rewrite <- is_main_ty_spec in Hn.
      cbn [app]. destruct (scan_main None (rev l2)); auto; cbn [scan_main]; rewrite Hm; destruct (is_main_ty (vd_ty d)); congruence.
    - intros H. apply scan_all. intros d Hd Hm. apply is_main_ty_spec. apply H; [apply in_rev|apply is_main_spec]; auto. }
  assert (Hres : (forall d, In d (p_defs p) -> vd_export d = Some main_text -> vd_ty d = TFn [TString] TString) ->
                 scan_main None (rev (p_defs p)) =
                 match find is_main (p_defs p) with Some d => MainName (vd_name d) | None => MainNone end).
  { intros H. destruct Hcase as [Hno|(l1 & d & l2 & E & Hm & Hl1)].
    - rewrite scan_none by (apply Hns; auto).
      destruct (find is_main (p_defs p)) as [d|] eqn:Ef; auto.
      apply find_some in Ef as [Hin Hm]. apply is_main_spec in Hm. exfalso. eapply Hno; eauto.
    - assert (Hd : vd_ty d = TFn [TString] TString) by (apply H; auto; rewrite E; apply in_app_iff; right; left; auto).
      rewrite E, rev_app_distr. cbn [rev]. rewrite <- app_assoc, scan_main_app.
      assert (Hr : scan_main None (rev l2) <> MainInvalid).
      { apply scan_all. intros d' Hd' Hm'. apply in_rev in Hd'. apply is_main_ty_spec. apply H.
        rewrite E; apply in_app_iff; right; right; auto. apply is_main_spec; auto. }
      assert (Ef : find is_main (l1 ++ d :: l2) = Some d).
      { clear -Hl1 Hm. induction l1 as [|x l1 IH]; cbn [app find].
        - apply is_main_spec in Hm. rewrite Hm. reflexivity.
        - destruct (is_main x) eqn:Ex; [apply is_main_spec in Ex; exfalso; eapply Hl1; [left; eauto|auto]|].
          apply IH. intros; apply Hl1; right; auto. }
      rewrite Ef. apply is_main_spec in Hm. apply is_main_ty_spec in Hd.
      destruct (scan_main None (rev l2)); [|congruence|]; cbn [app scan_main]; rewrite Hm, Hd; rewrite scan_none by (apply Hns; auto); reflexivity. }
  assert (Hinv : find_main p = MainInvalid <-> exists d, In d (p_defs p) /\ vd_export d = Some main_text /\ vd_ty d <> TFn [TString] TString).
  { unfold find_main. split.
    - intros E. generalize (proj2 Hall). intros Hq.
      assert (Hnot : ~ (forall d, In d (p_defs p) -> vd_export d = Some main_text -> vd_ty d = TFn [TString] TString)) by tauto.
      clear -Hnot Hdec. induction (p_defs p) as [|d l IH]; [exfalso; apply Hnot; intros ? []|].
      destruct (is_main d) eqn:Em; [destruct (Hdec d) as [Ht|Ht]|].
      + destruct IH as (x & Hx & H1 & H2); [|exists x; split; [right|]; auto].
        intros H. apply Hnot. intros x [<-|Hx]; auto.
      + exists d. apply is_main_spec in Em. split; [left|]; auto.
      + destruct IH as (x & Hx & H1 & H2); [|exists x; split; [right|]; auto].
        intros H. apply Hnot. intros x [<-|Hx]; auto. rewrite <- is_main_spec. congruence.
    - intros (d & Hd & Hm & Ht). destruct (scan_main None (rev (p_defs p))) eqn:E; auto; exfalso; apply Ht; apply Hall; auto; congruence. }
  split; [|split; [|exact Hinv]].
  - intros n. split.
    + intros E. assert (Ha := proj1 Hall ltac:(congruence)). split; auto. rewrite (Hres Ha) in E.
      destruct Hcase as [Hno|(l1 & d & l2 & E1 & Hm & Hl1)].
      * destruct (find is_main (p_defs p)) as [d|] eqn:Ef; [|discriminate].
        apply find_some in Ef as [Hin Hm]. apply is_main_spec in Hm. exfalso. eapply Hno; eauto.
      * exists l1, d, l2. split; auto. split; auto. split; auto.
        assert (Ef : find is_main (p_defs p) = Some d).
        { rewrite E1. clear -Hl1 Hm. induction l1 as [|x l1 IH]; cbn [app find].
          - apply is_main_spec in Hm. rewrite Hm. reflexivity.
          - destruct (is_main x) eqn:Ex; [apply is_main_spec in Ex; exfalso; eapply Hl1; [left; eauto|auto]|].
            apply IH. intros; apply Hl1; right; auto. }
        rewrite Ef in E. congruence.
    + intros (Ha & l1 & d & l2 & E1 & Hm & <- & Hl1). rewrite (Hres Ha).
      assert (Ef : find is_main (p_defs p) = Some d).
      { rewrite E1. clear -Hl1 Hm. induction l1 as [|x l1 IH]; cbn [app find].
        - apply is_main_spec in Hm. rewrite Hm. reflexivity.
        - destruct (is_main x) eqn:Ex; [apply is_main_spec in Ex; exfalso; eapply Hl1; [left; eauto|auto]|].
          apply IH. intros; apply Hl1; right; auto. }
      rewrite Ef. reflexivity.
  - split.
    + intros E d Hd Hm. assert (Ha := proj1 Hall ltac:(congruence)). rewrite (Hres Ha) in E.
      destruct (find is_main (p_defs p)) eqn:Ef; [discriminate|].
      eapply find_none in Ef; [|exact Hd]. apply is_main_spec in Hm. congruence.
    + intros H. apply scan_none. apply Hns. auto.
Qed.
