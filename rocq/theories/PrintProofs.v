(** Printed results identify the value (interpreter.rs write_value), for strings without quotes and
    backslashes. *)
From Verif Require Import Eval EvalFacts Vm ArithProofs Checks.
Set Implicit Arguments.

(** Source identifiers: lexer.rs token [Name]. *)
Definition ident_char (c : N) : bool :=
  (((48 <=? c) && (c <=? 57)) || ((65 <=? c) && (c <=? 90)) || ((97 <=? c) && (c <=? 122)) || (c =? 95))%N.
Definition ident (s : list N) : Prop := s <> [] /\ Forall (fun c => ident_char c = true) s.

(** [sig t c = Some fts]: [c] is a constructor of the data type [t], with field types [fts]. *)
Fixpoint has_ty (sig : ty -> name -> option (list ty)) (v : obs) (t : ty) {struct v} : Prop :=
  match v, t with
  | OInt _, TInt => True
  | OBool _, TBool => True
  | OString _, TString => True
  | OComp c fs, TNamed T a =>
    match sig (TNamed T a) c with
    | Some fts => (fix go (fs : list obs) (ts : list ty) : Prop :=
                     match fs, ts with
                     | [], [] => True
                     | f :: fs', t :: ts' => has_ty sig f t /\ go fs' ts'
                     | _, _ => False
                     end) fs fts
    | None => False
    end
  | _, _ => False
  end.
(** No string inside contains a quote or a backslash; strings consist of bytes. *)
Definition clean_byte (b : N) : bool := ((b <? 256) && negb (b =? 34) && negb (b =? 92))%N.
Fixpoint clean (v : obs) : Prop :=
  match v with
  | OString s => Forall (fun b => clean_byte b = true) s
  | OComp _ fs => (fix go (fs : list obs) : Prop := match fs with [] => True | f :: r => clean f /\ go r end) fs
  | _ => True
  end.
(** Constructor names are identifiers, distinct within a type. *)
Definition good_names (sig : ty -> name -> option (list ty)) (names : name -> list N) : Prop :=
  (forall t c fts, sig t c = Some fts -> ident (names c)) /\
  (forall t c c' fts fts', sig t c = Some fts -> sig t c' = Some fts' -> names c = names c' -> c = c').

Section ObsInd.
  Variable P : obs -> Prop.
  Hypothesis HI : forall i, P (OInt i).
  Hypothesis HB : forall b, P (OBool b).
  Hypothesis HS : forall s, P (OString s).
  Hypothesis HC : forall c fs, Forall P fs -> P (OComp c fs).
  Hypothesis HF : P OFn.
  Fixpoint obs_ind' (v : obs) : P v :=
    match v with
    | OInt i => HI i | OBool b => HB b | OString s => HS s | OFn => HF
    | OComp c fs => HC c ((fix all (l : list obs) : Forall P l :=
        match l with [] => Forall_nil _ | x :: r => Forall_cons _ (obs_ind' x) (all r) end) fs)
    end.
End ObsInd.

Lemma run_split (P : N -> bool) a : forall b r1 r2,
  Forall (fun c => P c = true) a -> Forall (fun c => P c = true) b ->
  (forall c r, r1 = c :: r -> P c = false) -> (forall c r, r2 = c :: r -> P c = false) ->
  a ++ r1 = b ++ r2 -> a = b /\ r1 = r2.
Proof.
  induction a as [|x a IH]; intros [|y b] r1 r2 Ha Hb H1 H2 E; cbn [app] in E.
  - auto.
  - specialize (H1 _ _ E). inversion Hb; congruence.
  - symmetry in E. specialize (H2 _ _ E). inversion Ha; congruence.
  - injection E as -> E. inversion Ha; inversion Hb; subst. destruct (IH b r1 r2) as [-> ->]; auto.
Qed.

(** Printed bytes: no printed byte is a prefix of another. *)
Fixpoint prefixb (a b : list N) : bool :=
  match a, b with [], _ => true | x :: a', y :: b' => (x =? y)%N && prefixb a' b' | _, [] => false end.
Lemma prefixb_app a b r s : a ++ r = b ++ s -> prefixb a b = true \/ prefixb b a = true.
Proof.
  revert b. induction a as [|x a IH]; intros [|y b] E; cbn [prefixb]; auto.
  cbn [app] in E. injection E as -> E. rewrite N.eqb_refl. apply IH. auto.
Qed.
Definition all_bytes : list N := map N.of_nat (List.seq 0 256).
Lemma show_byte_free_check :
  forallb (fun a => forallb (fun b => negb (clean_byte a && clean_byte b) || N.eqb a b || negb (prefixb (show_byte a) (show_byte b)))
                            all_bytes) all_bytes = true.
Proof. vm_compute. reflexivity. Qed.
Lemma byte_in b : (b < 256)%N -> In b all_bytes.
Proof.
  intros H. unfold all_bytes. apply in_map_iff. exists (N.to_nat b). split; [apply N2Nat.id|]. apply in_seq. lia.
Qed.
Lemma clean_lt b : clean_byte b = true -> (b < 256)%N.
Proof. unfold clean_byte. rewrite !andb_true_iff, N.ltb_lt. tauto. Qed.
Lemma show_byte_free a b : clean_byte a = true -> clean_byte b = true ->
  prefixb (show_byte a) (show_byte b) = true -> a = b.
Proof.
  intros Ha Hb H. pose proof show_byte_free_check as HF. rewrite forallb_forall in HF.
  specialize (HF a (byte_in (clean_lt _ Ha))). rewrite forallb_forall in HF. specialize (HF b (byte_in (clean_lt _ Hb))).
  rewrite Ha, Hb, H in HF. cbn in HF. rewrite orb_false_r in HF. apply N.eqb_eq; auto.
Qed.
Lemma show_byte_noq_check :
  forallb (fun a => negb (clean_byte a) || forallb (fun c => negb (c =? 34)%N) (show_byte a)) all_bytes = true.
Proof. vm_compute. reflexivity. Qed.
Lemma show_byte_noq a : clean_byte a = true -> Forall (fun c => negb (c =? 34)%N = true) (show_byte a).
Proof.
  intros Ha. pose proof show_byte_noq_check as HF. rewrite forallb_forall in HF.
  specialize (HF a (byte_in (clean_lt _ Ha))). rewrite Ha in HF. cbn [negb orb] in HF. apply Forall_forall. apply forallb_forall; auto.
Qed.
Lemma show_byte_nonempty b : show_byte b <> [].
Proof. unfold show_byte. destruct (_ && _); [discriminate|]. destruct (N.eqb b 13); [discriminate|]. destruct (N.eqb b 10); discriminate. Qed.

Lemma show_body_inj s1 : forall s2, Forall (fun b => clean_byte b = true) s1 -> Forall (fun b => clean_byte b = true) s2 ->
  flat_map show_byte s1 = flat_map show_byte s2 -> s1 = s2.
Proof.
  induction s1 as [|a s1 IH]; intros [|b s2] H1 H2 E; cbn [flat_map] in E; auto.
  - symmetry in E. apply app_eq_nil in E as [E _]. apply show_byte_nonempty in E; tauto.
  - apply app_eq_nil in E as [E _]. apply show_byte_nonempty in E; tauto.
  - inversion H1; inversion H2; subst.
    assert (a = b).
    { destruct (prefixb_app _ _ _ _ E) as [H|H]; apply show_byte_free in H; auto. }
    subst b. apply app_inv_head in E. f_equal. auto.
Qed.

(** What may follow a printed field. *)
Definition delimited (r : list N) : Prop := forall c r', r = c :: r' -> ident_char c = false.

Lemma digits_ident s : Forall is_digit s -> Forall (fun c => ident_char c = true) s.
Proof.
  apply Forall_impl. unfold is_digit, ident_char. intros c H.
  destruct (N.leb_spec 48 c), (N.leb_spec c 57); try lia; reflexivity.
Qed.

Lemma print_split sig names : good_names sig names ->
  forall v1 v2 t atom r1 r2,
    has_ty sig v1 t -> has_ty sig v2 t -> clean v1 -> clean v2 -> delimited r1 -> delimited r2 ->
    write_value names atom v1 ++ r1 = write_value names atom v2 ++ r2 -> v1 = v2 /\ r1 = r2.
Proof.
  intros [Hid Hinj]. induction v1 as [i|b|s|c fs IH|] using obs_ind'; intros v2 t atom r1 r2 T1 T2 C1 C2 D1 D2 E.
  - destruct t; try contradiction T1. destruct v2; try contradiction T2. cbn [write_value] in E.
    destruct (@int_to_string_spec i) as (A1 & A2 & _). destruct (@int_to_string_spec i0) as (B1 & B2 & _).
    apply (@run_split ident_char) in E as [E ->]; auto using digits_ident. split; auto. f_equal. congruence.
  - destruct t; try contradiction T1. destruct v2; try contradiction T2. cbn [write_value] in E.
    assert (HT : Forall (fun c => ident_char c = true) true_text) by (repeat constructor).
    assert (HF : Forall (fun c => ident_char c = true) false_text) by (repeat constructor).
    destruct b, b0; apply (@run_split ident_char) in E as [E ->]; auto; discriminate E.
  - destruct t; try contradiction T1. destruct v2 as [| |s2| |]; try contradiction T2. cbn [write_value] in E. cbn [clean] in C1, C2.
    unfold show_bytes in E. cbn [app] in E. injection E as E. rewrite <- !app_assoc in E.
    assert (HQ : forall s, Forall (fun b => clean_byte b = true) s -> Forall (fun c => negb (c =? 34)%N = true) (flat_map show_byte s)).
    { intros s0 H0. induction H0 as [|x l Hx _ IHl]; cbn [flat_map]; [constructor|]. apply Forall_app. split; auto using show_byte_noq. }
    apply (@run_split (fun c => negb (c =? 34)%N)) in E as [E1 E2]; auto; try (intros c0 r0 E0; injection E0 as <- _; reflexivity).
    cbn [app] in E2. injection E2 as ->. split; auto. f_equal. apply show_body_inj; auto.
  - destruct t as [| | | |T a| |]; try contradiction T1. destruct v2 as [| | |c2 fs2|]; try contradiction T2.
    cbn [has_ty] in T1, T2. cbn [clean] in C1, C2.
    destruct (sig (TNamed T a) c) as [fts|] eqn:S1; [|contradiction]. destruct (sig (TNamed T a) c2) as [fts2|] eqn:S2; [|contradiction].
    destruct (Hid _ _ _ S1) as [N1 I1]. destruct (Hid _ _ _ S2) as [N2 I2].
    cbn [write_value] in E. rewrite <- !app_assoc in E.
    set (F := flat_map (fun f => 32%N :: write_value names true f)) in *.
    assert (HD : forall (p : bool) fs r, delimited r -> delimited (F fs ++ (if p then [41%N] else []) ++ r)).
    { intros p l r Hr ch r' Ech. destruct l as [|f l]; cbn in Ech.
      - destruct p; cbn in Ech; [injection Ech as <- _; reflexivity|eauto].
      - injection Ech as <- _. reflexivity. }
    set (p1 := atom && negb (length fs =? 0)) in *. set (p2 := atom && negb (length fs2 =? 0)) in *.
    assert (Hp : p1 = p2).
    { destruct p1, p2; auto; cbn [app] in E; exfalso.
      - destruct (names c2) as [|x n2]; [congruence|]. cbn [app] in E. injection E as <- _. inversion I2; discriminate.
      - destruct (names c) as [|x n1]; [congruence|]. cbn [app] in E. injection E as -> _. inversion I1; discriminate. }
    rewrite <- Hp in E. clearbody p1. clear p2 Hp. apply app_inv_head in E.
    apply (@run_split ident_char) in E as [En E]; try apply HD; auto.
    assert (c = c2) by eauto. subst c2. rewrite S1 in S2. injection S2 as <-. clear En.
    assert (HG : forall ts l2, (fix go (fs : list obs) (ts : list ty) : Prop :=
                     match fs, ts with
                     | [], [] => True
                     | f :: fs', t :: ts' => has_ty sig f t /\ go fs' ts'
                     | _, _ => False
                     end) fs ts -> (fix go (fs : list obs) (ts : list ty) : Prop :=
                     match fs, ts with
                     | [], [] => True
                     | f :: fs', t :: ts' => has_ty sig f t /\ go fs' ts'
                     | _, _ => False
                     end) l2 ts ->
         (fix go (fs : list obs) : Prop := match fs with [] => True | f :: r => clean f /\ go r end) l2 ->
         F fs ++ (if p1 then [41%N] else []) ++ r1 = F l2 ++ (if p1 then [41%N] else []) ++ r2 -> fs = l2 /\ r1 = r2).
    { clear E T1 T2 C2 S1 N1 I1 N2 I2 fts. revert C1. induction IH as [|f l Hf _ IHl]; intros C1 ts l2 T1 T2 C2 E.
      - destruct ts; [|contradiction]. destruct l2; [|contradiction]. split; auto.
        cbn in E. apply app_inv_head in E. auto.
      - destruct ts as [|t ts]; [contradiction|]. destruct l2 as [|f2 l2]; [contradiction|].
        destruct C1 as [C1 C1']. destruct C2 as [C2 C2']. destruct T1 as [T1 T1']. destruct T2 as [T2 T2'].
        unfold F in E. cbn [flat_map app] in E. fold F in E. injection E as E. rewrite <- !app_assoc in E.
        destruct (Hf f2 t true _ _ T1 T2 C1 C2 (HD p1 l r1 D1) (HD p1 l2 r2 D2) E) as [-> E'].
        destruct (IHl C1' ts l2 T1' T2' C2' E') as [-> ->]. auto. }
    destruct (HG fts fs2) as [-> ->]; auto.
  - destruct t; contradiction T1.
Qed.

Lemma print_inj sig names v1 v2 t atom :
  good_names sig names -> has_ty sig v1 t -> has_ty sig v2 t -> clean v1 -> clean v2 ->
  write_value names atom v1 = write_value names atom v2 -> v1 = v2.
Proof.
  intros Hg T1 T2 C1 C2 E.
  destruct (@print_split sig names Hg v1 v2 t atom [] []) as [H _]; auto; try (intros ? ? H; discriminate H).
  rewrite !app_nil_r. auto.
Qed.
