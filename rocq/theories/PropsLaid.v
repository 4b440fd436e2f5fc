(** The hypothesis of C53, C54, C56 and C57 about the places of names, for the tokens of a source. *)
From Verif Require Import LexerSpec LexerProofs PropsLexer.
From Verif Require Import TokenSpec NavSpec.
Set Implicit Arguments.

(** The name is one of the name tokens of the source, with its text. *)
Definition name_of_source (err : list N -> nat) (src : list N) (n : ident) : Prop :=
  In (KName, span n) (tokens_at 0 (lex err src)) /\ id_text n = firstn (length (id_text n)) (skipn (id_at n) src).

Lemma tokens_after : forall ts p k sp, In (k, sp) (tokens_at p ts) -> p <= fst sp.
Proof.
  induction ts as [|[k t] ts IH]; intros p k' sp; cbn; [intros []|]. intros [E|H]; [injection E as _ <-; cbn; lia|]. apply IH in H. lia.
Qed.
Definition apart (a b : nat * nat) : Prop := a = b \/ snd a < fst b \/ snd b < fst a.
Lemma next_name s ts : lexes s ts -> match s with c :: _ => is_word c = false | [] => True end -> forall p sp, In (KName, sp) (tokens_at p ts) -> p < fst sp.
Proof.
  intros L W p sp H. destruct ts as [|[k t] ts]; [destruct H|]. cbn in H. assert (NE : forall k t ts, lexes s ((k, t) :: ts) -> t <> []).
  { intros k0 t0 ts0 L0. inversion L0; subst; auto. eapply matches_ne; eauto. }
  pose proof (NE _ _ _ L) as Ht. destruct H as [E|H].
  - injection E as -> <-. exfalso. inversion L as [|? ? ? ? ? Es M _ _ _|]; subst. destruct M as (c & r & -> & A & _). cbn in W. unfold is_word in W. rewrite A in W. discriminate.
  - apply tokens_after in H. destruct t; [congruence|]. cbn in H. lia.
Qed.
Lemma names_apart : forall ts s, lexes s ts -> forall p a b, In (KName, a) (tokens_at p ts) -> In (KName, b) (tokens_at p ts) -> apart a b.
Proof.
  induction ts as [|[k t] ts IH]; intros s L p a b Ha Hb; [destruct Ha|]. cbn in Ha, Hb. assert (L2 : exists s2, lexes s2 ts) by (inversion L; eauto). destruct L2 as (s2 & L2).
  assert (FIRST : k = KName -> forall sp, In (KName, sp) (tokens_at (p + length t) ts) -> p + length t < fst sp).
  { intros -> sp H. destruct (@lexes_words [] KName t ts s L (or_intror eq_refl)) as (W & _). destruct (lexes_tile L2) as [E _]. rewrite E in W. exact (next_name L2 W _ _ H). }
  destruct Ha as [Ea|Ha], Hb as [Eb|Hb].
  - left. congruence.
  - injection Ea as Ek <-. right. left. cbn. apply FIRST; auto.
  - injection Eb as Ek <-. right. right. cbn. apply FIRST; auto.
  - eapply IH; eauto.
Qed.
(** The names of a source do not touch: a position, the ends included, is on at most one. *)
Theorem C53_names_of_a_source_are_apart err src a b pos :
  name_of_source err src a -> name_of_source err src b -> on a pos = true -> on b pos = true -> a = b.
Proof.
  intros [Ha Ta] [Hb Tb] Oa Ob. unfold on in Oa, Ob. apply andb_true_iff in Oa as [A1 A2]. apply andb_true_iff in Ob as [B1 B2]. apply Nat.leb_le in A1, A2, B1, B2.
  destruct (@names_apart _ _ (lex_spec err src) 0 _ _ Ha Hb) as [E|[E|E]]; unfold span in E; cbn in E; try lia. injection E as E1 E2.
  destruct a as [ta pa], b as [tb pb]. cbn in *. subst pb. assert (length ta = length tb) as El by lia. rewrite El in Ta. congruence.
Qed.
Print Assumptions C53_names_of_a_source_are_apart.
(** So a program whose names are tokens of a source, each standing for one use or one definition and inside its
    item, is laid out. *)
Theorem C53_sources_are_laid_out err src ps :
  in_items 0 ps (names_of ps) -> NoDup (map fst (uses ps) ++ binders ps) ->
  (forall n, In n (map fst (uses ps) ++ binders ps) -> name_of_source err src n) -> laid_out ps.
Proof. intros I N S. constructor; auto. intros a b pos Ha Hb. apply C53_names_of_a_source_are_apart with (err := err) (src := src); auto. Qed.
Print Assumptions C53_sources_are_laid_out.

From Verif Require PropsTokens.
(** The source of the example of C56 and its program. *)
Example C53_source_example : in_items 0 PropsTokens.hs (names_of PropsTokens.hs) /\ NoDup (map fst (uses PropsTokens.hs) ++ binders PropsTokens.hs) /\
  (forall n, In n (map fst (uses PropsTokens.hs) ++ binders PropsTokens.hs) -> name_of_source (fun _ => 1) PropsTokens.hs_src n).
Proof.
  split; [apply (lo_items PropsTokens.hs_laid_out)|]. split; [apply (lo_once PropsTokens.hs_laid_out)|]. intros n Hn. vm_compute in Hn.
  repeat (destruct Hn as [<-|Hn]; [split; [vm_compute; tauto|vm_compute; reflexivity]|]). destruct Hn.
Qed.
