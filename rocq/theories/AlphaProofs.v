(** [assert_fits] against alpha-equivalence. *)
From Verif Require Import Verify AlphaSpec.
From Coq Require Import Lia.
Set Implicit Arguments.

Lemma Forall2_length {A B} (R : A -> B -> Prop) l m : Forall2 R l m -> length l = length m.
Proof. induction 1; simpl; auto. Qed.

Lemma same_var_in G x y : same_var G x y -> x = y \/ In (x, y) G.
Proof.
  induction G as [|[a b] G IH]; simpl; auto. intros [[-> ->]|(_ & _ & H)]; auto. destruct (IH H); auto.
Qed.

Definition all_fit : list ty -> list ty -> list (tyvar * tyvar) -> option (list (tyvar * tyvar)) :=
  fix all (xs ys : list ty) (pairs : list (tyvar * tyvar)) {struct xs} :=
    match xs, ys with
    | x :: xs', y :: ys' => do p <- fits_go x y pairs; all xs' ys' p
    | _, _ => Some pairs
    end.

Lemma fits_complete a : forall G b P, alpha G a b -> incl G P -> exists P', fits_go a b P = Some P' /\ incl P P'.
Proof.
  assert (L : forall ts, Forall (fun a => forall G b P, alpha G a b -> incl G P ->
                exists P', fits_go a b P = Some P' /\ incl P P') ts ->
              forall G us P, Forall2 (alpha G) ts us -> incl G P ->
              exists P', all_fit ts us P = Some P' /\ incl P P').
  { induction 1 as [|t ts Ht Hts IH]; intros G us P H HI; inversion H; subst; simpl.
    - eexists; split; [reflexivity|apply incl_refl].
    - edestruct Ht as (P1 & E1 & I1); eauto. rewrite E1.
      destruct (IH G l' P1) as (P2 & E2 & I2); auto. { eapply incl_tran; eauto. }
      rewrite E2. eexists; split; eauto. eapply incl_tran; eauto. }
  induction a using ty_ind'; intros G b P HA HI; inversion HA; subst; simpl.
  - eexists; split; [reflexivity|apply incl_refl].
  - eexists; split; [reflexivity|apply incl_refl].
  - eexists; split; [reflexivity|apply incl_refl].
  - match goal with H : same_var _ _ _ |- _ => apply same_var_in in H as [->|HX] end.
    + rewrite Nat.eqb_refl. simpl. eexists; split; [reflexivity|apply incl_refl].
    + assert (EX : existsb (fun p => Nat.eqb (fst p) v && Nat.eqb (snd p) y) P = true).
      { apply existsb_exists. exists (v, y). split; auto. simpl. rewrite !Nat.eqb_refl. auto. }
      rewrite EX, orb_true_r. eexists; split; [reflexivity|apply incl_refl].
  - match goal with H2 : Forall2 _ _ _ |- _ => pose proof H2 as HF; apply Forall2_length in H2; rewrite H2 end.
    rewrite !Nat.eqb_refl. simpl.
    match goal with H : Forall _ _ |- _ => exact (L _ H G _ P HF HI) end.
  - match goal with H2 : Forall2 _ _ _ |- _ => pose proof H2 as HF; apply Forall2_length in H2; rewrite H2 end.
    rewrite Nat.eqb_refl.
    match goal with H : Forall _ _ |- _ => destruct (L _ H G _ P HF HI) as (P1 & E1 & I1) end.
    unfold all_fit in E1. rewrite E1.
    edestruct IHa as (P2 & E2 & I2); [eassumption| |]. { eapply incl_tran; [exact HI|exact I1]. }
    rewrite E2. eexists; split; eauto. eapply incl_tran; eauto.
  - edestruct IHa as (P2 & E2 & I2); [eassumption|instantiate (1 := (v, y) :: P)|].
    { intros z [<-|Hz]; [left; reflexivity|right; apply HI; auto]. }
    rewrite E2. eexists; split; eauto. intros z Hz. apply I2. right. auto.
Qed.

Lemma same_var_mk G x y : In (x, y) G -> NoDup (map fst G) -> NoDup (map snd G) -> same_var G x y.
Proof.
  induction G as [|[a b] G IH]; simpl; [tauto|]. intros HI N1 N2. inversion N1; inversion N2; subst.
  destruct HI as [E|HI]; [injection E as -> ->; auto|].
  right. split; [|split; auto].
  - intros ->. apply H1. apply in_map_iff. exists (a, y). auto.
  - intros ->. apply H5. apply in_map_iff. exists (x, b). auto.
Qed.
Lemma same_var_out G x : ~ In x (map fst G) -> ~ In x (map snd G) -> same_var G x x.
Proof. induction G as [|[a b] G IH]; simpl; auto. intros H1 H2. right. intuition. Qed.

Section Sound.
  (** The free variables of the two types being compared. *)
  Variables FA FB : tyvar -> Prop.

  Record inv (G P : list (tyvar * tyvar)) (a b : ty) (ba bb : list tyvar) : Prop := mkInv {
    i_fa : forall x, ty_free x a -> In x (map fst G) \/ FA x;
    i_fb : forall x, ty_free x b -> In x (map snd G) \/ FB x;
    i_n1 : NoDup (map fst G); i_n2 : NoDup (map snd G);
    i_g : forall x, In x (map fst G) -> ~ In x (map snd G) /\ ~ FA x /\ ~ FB x;
    i_g' : forall x, In x (map snd G) -> ~ FA x /\ ~ FB x;
    i_p : forall x y, In (x, y) P -> In (x, y) G \/ (~ In x (map fst G) /\ ~ FA x);
    i_b : NoDup (ba ++ bb);
    i_ba : forall x, In x ba -> ~ In x (map fst G) /\ ~ In x (map snd G) /\ ~ FA x /\ ~ FB x /\ ~ In x (map fst P);
    i_bb : forall x, In x bb -> ~ In x (map fst G) /\ ~ In x (map snd G) /\ ~ FA x /\ ~ FB x
  }.

  Lemma inv_sub G P a b ba bb a' b' ba' bb' : inv G P a b ba bb ->
    (forall x, ty_free x a' -> ty_free x a) -> (forall x, ty_free x b' -> ty_free x b) ->
    incl ba' ba -> incl bb' bb -> NoDup (ba' ++ bb') -> inv G P a' b' ba' bb'.
  Proof. intros [] H1 H2 H3 H4 H5. constructor; eauto. Qed.

  Lemma inv_pairs G P P' a b ba bb (new : list tyvar) : inv G P a b ba bb ->
    (forall x y, In (x, y) P' -> In (x, y) P \/ In x new) ->
    (forall x, In x new -> ~ In x (map fst G) /\ ~ FA x /\ ~ In x ba) -> inv G P' a b ba bb.
  Proof.
    intros [] H1 H2. constructor; auto.
    - intros x y Hx. destruct (H1 _ _ Hx) as [Hy|Hy]; auto. right. split; apply H2; auto.
    - intros x Hx. destruct (i_ba0 x Hx) as (A & B & C & D & E). repeat split; auto.
      intros HI. apply in_map_iff in HI as ([u v] & <- & HI). simpl in *.
      destruct (H1 _ _ HI) as [Hy|Hy]; [|eapply H2; eauto].
      apply E, in_map_iff. exists (u, v). auto.
  Qed.

  Lemma NoDup_app_sub (l1 l2 m1 m2 : list nat) :
    NoDup ((l1 ++ l2) ++ (m1 ++ m2)) -> NoDup (l1 ++ m1) /\ NoDup (l2 ++ m2) /\ (forall x, In x l1 -> ~ In x l2).
  Proof.
    intros H.
    assert (Q : forall (A : list nat) B, NoDup (A ++ B) -> NoDup A /\ NoDup B /\ forall x, In x A -> ~ In x B).
    { clear. induction A as [|a A IH]; simpl; intros B HN. { repeat split; auto; constructor. }
      inversion HN; subst. apply IH in H2 as (P1 & P2 & P3). rewrite in_app_iff in H1. split.
      { constructor; tauto. }
      split; auto. intros x [<-|Hx]; auto. }
    assert (R : forall (A : list nat) B, NoDup A -> NoDup B -> (forall x, In x A -> ~ In x B) -> NoDup (A ++ B)).
    { clear. induction A as [|a A IH]; simpl; intros B HA HB HD; auto. inversion HA; subst. constructor.
      - rewrite in_app_iff. intros [?|?]; auto. eapply HD; eauto.
      - apply IH; auto. }
    apply Q in H as (H1 & H2 & H3). apply Q in H1 as (A1 & A2 & A3). apply Q in H2 as (B1 & B2 & B3).
    repeat split; auto; apply R; auto; intros x Hx Hy; apply (H3 x); rewrite in_app_iff; auto.
  Qed.

  Lemma fits_sound a : forall b G P P', inv G P a b (ty_binders a) (ty_binders b) -> fits_go a b P = Some P' ->
    alpha G a b /\ forall x y, In (x, y) P' -> In (x, y) P \/ In x (ty_binders a).
  Proof.
    assert (L : forall ts, Forall (fun a => forall b G P P', inv G P a b (ty_binders a) (ty_binders b) ->
                fits_go a b P = Some P' -> alpha G a b /\ forall x y, In (x, y) P' -> In (x, y) P \/ In x (ty_binders a)) ts ->
              forall us G P P' a b, length ts = length us ->
                inv G P a b (flat_map ty_binders ts) (flat_map ty_binders us) ->
                (forall t x, In t ts -> ty_free x t -> ty_free x a) ->
                (forall t x, In t us -> ty_free x t -> ty_free x b) ->
                all_fit ts us P = Some P' ->
                Forall2 (alpha G) ts us /\ forall x y, In (x, y) P' -> In (x, y) P \/ In x (flat_map ty_binders ts)).
    { induction 1 as [|t ts Ht Hts IH]; intros us G P P' A B Hl HI HA HB H; destruct us as [|u us]; try discriminate; simpl in *.
      - injection H as <-. split; auto.
      - destruct (fits_go t u P) as [P1|] eqn:E1; [|discriminate].
        pose proof (NoDup_app_sub _ _ _ _ (i_b HI)) as (D1 & D2 & D3).
        assert (I1 : inv G P t u (ty_binders t) (ty_binders u)).
        { eapply inv_sub; [exact HI| | | | |exact D1]; eauto; intros x Hx; apply in_or_app; auto. }
        destruct (Ht _ _ _ _ I1 E1) as [A1 Q1].
        assert (I2 : inv G P1 A B (flat_map ty_binders ts) (flat_map ty_binders us)).
        { eapply inv_pairs with (P := P); [|exact Q1|].
          - eapply inv_sub; [exact HI| | | | |exact D2]; auto; intros x Hx; apply in_or_app; auto.
          - intros x Hx. destruct (i_ba HI x) as (? & ? & ? & ? & ?); [apply in_or_app; auto|]. auto. }
        edestruct IH as [A2 Q2]; [|exact I2| | |exact H|]; eauto.
        split; auto. intros x y Hx. rewrite in_app_iff. destruct (Q2 _ _ Hx) as [Hy|]; auto.
        destruct (Q1 _ _ Hy); auto. }
    induction a using ty_ind'; intros b G P P' HI HF; destruct b; simpl in HF; try discriminate.
    - injection HF as <-. split; [constructor|auto].
    - injection HF as <-. split; [constructor|auto].
    - injection HF as <-. split; [constructor|auto].
    - match type of HF with (if ?c then _ else _) = _ => destruct c eqn:E; [|discriminate] end.
      injection HF as <-. split; [|auto]. constructor.
      pose proof (i_fa HI (f_var v)) as HX. pose proof (i_fb HI (f_var v0)) as HY.
      apply orb_true_iff in E as [E|E].
      + apply Nat.eqb_eq in E. subst v0. apply same_var_out.
        * intros HG. apply (i_g HI) in HG. tauto.
        * intros HG. pose proof (i_g' HI _ HG). destruct HX as [HX|HX]; [|tauto]. apply (i_g HI) in HX. tauto.
      + apply existsb_exists in E as ([u w] & Hu & E). simpl in E. apply andb_true_iff in E as [E1 E2].
        apply Nat.eqb_eq in E1, E2. subst u w.
        destruct (i_p HI _ _ Hu) as [HG|[H1 H2]]; [|tauto].
        apply same_var_mk; auto; apply HI.
    - destruct (Nat.eqb n n0 && (length args =? length args0)) eqn:E; [|discriminate].
      apply andb_true_iff in E as [E1 E2]. apply Nat.eqb_eq in E1, E2. subst n0.
      simpl in *. edestruct L as [A Q]; [eassumption|exact E2|exact HI| | |exact HF|].
      + intros t x Ht Hx. eapply f_named; eauto.
      + intros t x Ht Hx. eapply f_named; eauto.
      + split; auto. constructor. auto.
    - destruct (length ps =? length params) eqn:E2; [|discriminate]. apply Nat.eqb_eq in E2.
      match type of HF with match ?c with _ => _ end = _ => destruct c as [P1|] eqn:EP; [|discriminate] end.
      simpl in HI. pose proof (NoDup_app_sub _ _ _ _ (i_b HI)) as (D1 & D2 & D3).
      assert (I1 : inv G P (TFn ps a) (TFn params b) (flat_map ty_binders ps) (flat_map ty_binders params)).
      { eapply inv_sub; [exact HI| | | | |exact D1]; auto; intros x Hx; apply in_or_app; auto. }
      edestruct L as [A1 Q1]; [eassumption|exact E2|exact I1| | |exact EP|].
      { intros t x Ht Hx. eapply f_param; eauto. } { intros t x Ht Hx. eapply f_param; eauto. }
      assert (I2 : inv G P1 a b (ty_binders a) (ty_binders b)).
      { eapply inv_pairs with (P := P); [|exact Q1|].
        - eapply inv_sub; [exact HI| | | | |exact D2]; auto using f_out; intros x Hx; apply in_or_app; auto.
        - intros x Hx. destruct (i_ba HI x) as (? & ? & ? & ? & ?); [apply in_or_app; auto|]. auto. }
      destruct (IHa _ _ _ _ I2 HF) as [A2 Q2]. split.
      + constructor; auto.
      + intros x y Hx. simpl. rewrite in_app_iff. destruct (Q2 _ _ Hx) as [Hy|]; auto.
        destruct (Q1 _ _ Hy); auto.
    - simpl in HI. rename v0 into w.
      pose proof (i_b HI) as ND. simpl in ND. inversion ND as [|? ? NX ND']; subst.
      apply NoDup_remove in ND' as [ND1 NY]. rewrite in_app_iff in NX, NY. simpl in NX.
      destruct (i_ba HI v) as (V1 & V2 & V3 & V4 & V5); [simpl; auto|].
      destruct (i_bb HI w) as (W1 & W2 & W3 & W4); [simpl; auto|].
      assert (VW : v <> w) by (intros ->; tauto).
      assert (I1 : inv ((v, w) :: G) ((v, w) :: P) a b (ty_binders a) (ty_binders b)).
      { constructor; simpl.
        - intros x Hx. destruct (Nat.eq_dec x v); [subst; auto|].
          destruct (i_fa HI (@f_abs x _ _ n Hx)); auto.
        - intros x Hx. destruct (Nat.eq_dec x w); [subst; auto|].
          destruct (i_fb HI (@f_abs x _ _ n Hx)); auto.
        - constructor; auto. apply HI.
        - constructor; auto. apply HI.
        - intros x [<-|Hx].
          + split; auto. intros [HH|HH]; auto.
          + pose proof (i_g HI _ Hx) as (? & ? & ?). split; auto. intros [HH|HH]; auto. subst. auto.
        - intros x [<-|Hx]; auto. apply (i_g' HI); auto.
        - intros x y [E|Hx]; auto. destruct (i_p HI _ _ Hx) as [?|[? ?]]; auto. right. split; auto.
          intros [<-|?]; auto. apply V5, in_map_iff. exists (v, y). auto.
        - exact ND1.
        - intros x Hx. destruct (i_ba HI x) as (? & ? & ? & ? & ?); [simpl; auto|]. repeat split; auto.
          + intros [<-|?]; auto.
          + intros [<-|?]; auto.
          + intros [<-|?]; auto.
        - intros x Hx. destruct (i_bb HI x) as (? & ? & ? & ?); [simpl; auto|]. repeat split; auto.
          + intros [<-|?]; auto; tauto.
          + intros [<-|?]; auto. }
      destruct (IHa _ _ _ _ I1 HF) as [A Q]. split.
      + constructor. auto.
      + simpl. intros x y Hx. destruct (Q _ _ Hx) as [[E|Hy]|Hy]; auto. injection E as -> ->. auto.
  Qed.
End Sound.

Lemma fits_alpha_complete a b : alpha [] a b -> fits a b = true.
Proof.
  intros H. destruct (fits_complete H (@incl_refl _ [])) as (P & E & _). unfold fits. rewrite E. auto.
Qed.
Lemma fits_alpha_sound a b :
  NoDup (ty_binders a ++ ty_binders b) ->
  (forall x, In x (ty_binders a ++ ty_binders b) -> ~ ty_free x a /\ ~ ty_free x b) ->
  fits a b = true -> alpha [] a b.
Proof.
  intros HN HD H. unfold fits in H. destruct (fits_go a b []) as [P|] eqn:E; [|discriminate].
  refine (proj1 (@fits_sound (fun x => ty_free x a) (fun x => ty_free x b) a b [] [] P _ E)).
  constructor; simpl; auto; try tauto; try apply NoDup_nil.
  - intros z Hz. destruct (HD z) as [? ?]; [apply in_or_app; auto|]. repeat split; auto.
  - intros z Hz. destruct (HD z) as [? ?]; [apply in_or_app; auto|]. repeat split; auto.
Qed.
