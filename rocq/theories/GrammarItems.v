(** Items, and whole files, of the grammar. *)
From Verif Require Import Lexer LexerSpec LexerProofs Parser ParserSpec ParserProofs ParserRun ParserFns ParserTree ParserItem ParserFile GrammarSpec GrammarParse.
Set Implicit Arguments.

Lemma e_params n ps p ks : params ps -> K p = yields ps ++ KEquals :: ks -> cnt p < n -> wp (type_params n) p (fun _ p' => R p p' ps).
Proof.
  intros Hp HK Hf. pose proof (Rr p) as HR. unfold type_params. rewrite K_cnt, HK in Hf. destruct Hp as [|c].
  - cbn in HK. fs. fs. auto.
  - cbn [yields flat_map yield] in *. fold (yields (repeat name (S c))) in *. rewrite names_yield, app_nil_r in *. cbn [repeat app] in HK. fs. fs.
    eapply f_call with (t := repeat name (S c)); [exact HR0|rewrite names_yield; exact HK|eapply e_names with (c := S c); [exact HK|discriminate|rewrite app_length, repeat_length in Hf; lia]|].
    clear HR0 HK. intros _ q HR0 HK. fs. fs. exact (R_trans HR (RC_R HC)).
Qed.
Definition fieldstop (ks : list kind) : Prop := exists k r, ks = k :: r /\ (k = KPipe \/ k = KSemicolon).
Lemma field_first f : field f -> exists k r, yield f = k :: r /\ k <> KDot.
Proof. intros H. destruct H as [|t Ht]; cbn; [eexists _, _; split; [reflexivity|discriminate]|]. destruct (tyatom_first Ht) as (k & r & -> & Hk). rewrite app_nil_r. eexists _, _. split; [reflexivity|]. cbn in Hk. intuition congruence. Qed.
Lemma fields_dot l ks : Forall field l -> fieldstop ks -> not_dot (yields l ++ ks).
Proof.
  intros H (k & r & -> & Hk). destruct H as [|f l Hf _]; unfold not_dot; cbn; [intuition congruence|]. destruct (field_first Hf) as (k' & r' & -> & Hd). cbn. congruence.
Qed.
Lemma fields_len l : Forall field l -> length l <= length (yields l).
Proof. apply yields_len. intros f H. destruct (field_first H) as (k & r & -> & _). discriminate. Qed.
Lemma e_fields n l p ks : Forall field l -> K p = yields l ++ ks -> fieldstop ks -> 10 * cnt p + 4 <= n ->
  wp (while_ n (b <- at_ KRec ;; if b then m <- start ;; bump KRec ;; complete m RecField ;; ret true
      else o <- atom_type n ;; match o with Some m => m <- precede m ;; complete m TypeField ;; ret true | None => ret false end)) p (fun _ p' => R p p' l).
Proof.
  intros Hl HK Hs Hf. rewrite K_cnt, HK in Hf.
  eapply wp_mono; [eapply f_while with (l := l) (I := fun l' q => exists done, l = done ++ l' /\ R p q done /\ K q = yields l' ++ ks) (I' := fun q => R p q l)|]; auto.
  - intros x l' q (done & Ed & HR & HKq). assert (Hx : field x /\ Forall field l') by (rewrite Ed in Hl; apply Forall_app in Hl as [_ Hl]; inversion Hl; auto). destruct Hx as [Hx Hl'].
    assert (Hlen : length (yields l' ++ ks) <= length (yields l ++ ks)) by (rewrite Ed, yields_app; cbn [yields flat_map]; rewrite !app_length; fold (yields l'); lia).
    assert (Hlen2 : length (yield x ++ yields l' ++ ks) <= length (yields l ++ ks)) by (rewrite Ed, yields_app; cbn [yields flat_map]; rewrite !app_length; fold (yields l'); lia).
    cbn [yields flat_map] in HKq. fold (yields l') in HKq. rewrite <- app_assoc in HKq. destruct Hx as [|t Ht].
    + cbn [yield flat_map app] in HKq. do 5 fs. split; auto. eexists. split; [|split; [exact (R_trans HR (RC_R HC))|exact HKq]]. rewrite <- app_assoc. exact Ed.
    + cbn [yield flat_map] in HKq. rewrite app_nil_r in HKq. destruct (tyatom_first Ht) as (k & r & E & Hk).
      eapply f_at; [exact HR|exact HKq|]. replace (is_kind (hd_error (yield t ++ yields l' ++ ks)) KRec) with false by (rewrite E; destruct Hk as [<-|[<-|[<-|[<-|[<-|[]]]]]]; reflexivity). clear HR HKq. intros q1 HR HKq.
      eapply f_some; [exact HKq|eapply types_fwd; [exact Ht|exact HKq|apply fields_dot; auto|rewrite K_cnt, HKq; cbn [yield flat_map] in Hlen2; rewrite app_nil_r in Hlen2; lia]|]. clear HKq. intros m q2 HC HR2 HKq.
      eapply f_precede; [exact HC|exact HR2|exact HKq|]. clear HR2 HKq. intros y q3 HP HR2 HKq. eapply f_complete2; [exact HP|exact HR2|exact HKq|eapply ginner2; eauto; discriminate|].
      cbn [app]. intros q4 HC4 HK4. fs. split; auto. eexists. split; [|split; [exact (R_trans HR (RC_R HC4))|exact HK4]]. rewrite <- app_assoc. exact Ed.
  - intros q (done & Ed & HR & HKq). rewrite app_nil_r in Ed. subst done. destruct Hs as (k & r & -> & Hk). cbn in HKq. destruct n as [|n]; [lia|].
    assert (Hn : ~ In k [KInt; KBool; KStringTy; KName; KLeftParen; KRec]) by (destruct Hk; subst; cbn; intuition discriminate).
    eapply f_at; [exact HR|exact HKq|]. replace (is_kind (hd_error (k :: r)) KRec) with false by (destruct Hk; subst; reflexivity). clear HR HKq. intros q1 HR HKq.
    eapply wp_seq; [eapply atom_none; eauto|]. cbv beta. intros o q2 [-> HR2]. fs. split; auto. pose proof (R_trans HR HR2) as Y. rewrite app_nil_r in Y. auto.
  - exists []. split; auto. split; [apply Rr|auto].
  - pose proof (fields_len Hl). rewrite app_length in Hf. lia.
Qed.
Lemma e_case n o pipe c p ks : tcase pipe c -> (if o : bool then optional [Tok KPipe] pipe else pipe = [Tok KPipe]) -> K p = yield c ++ ks -> fieldstop ks -> 10 * cnt p + 4 <= n ->
  wp (type_case n o) p (fun _ p' => R p p' [c]).
Proof.
  intros Hc Ho HK Hs Hf. pose proof (Rr p) as HR. unfold type_case. destruct Hc as [fs_ Hfs]. begin Hf HK. fs.
  assert (Hp : optional [Tok KPipe] pipe) by (destruct o; subst; auto; constructor).
  assert (G : wp (b <- (if o then at_ KPipe else ret true) ;; if b then expect KPipe else ret tt) p0 (fun _ p' => R p0 p' pipe)).
  { destruct o.
    - destruct Hp as [|]; cbn [flat_map yield app] in HK; fs.
      + fs. auto.
      + eapply wp_mono; [eapply e_expect; exact HK|]. cbv beta. intros _ p' H. exact (R_trans HR0 H).
    - subst. cbn [flat_map yield app] in HK. fs. eapply e_expect; exact HK. }
  eapply f_call with (t := pipe); [exact HR0|exact HK|exact G|]. clear HR0 HK G. intros _ q HR0 HK. fs.
  eapply f_call with (t := fs_); [exact HR0|exact HK|eapply e_fields; eauto; len|]. clear HR0 HK. intros _ q1 HR0 HK. fs. fs. done.
Qed.
Lemma e_commas l : commas l -> forall n p ks, K p = yields l ++ KRightParen :: ks -> length (yields l) < n ->
  wp (while_ n (b <- at_ KRightParen ;; if b then ret false
      else expect_name ;; b <- at_ KComma ;; if b then bump KComma ;; ret true else ret false)) p (fun _ p' => R p p' l).
Proof.
  induction 1 as [| |l Hl IH]; intros n p ks HK Hn; pose proof (Rr p) as HR; (destruct n as [|n]; [lia|]); cbn [while_]; apply wp_assoc.
  - cbn in HK. do 2 fs. fs. auto.
  - cbn in HK. do 5 fs. fs. auto.
  - cbn in HK, Hn. fold (yields l) in *. do 8 fs. eapply wp_mono; [eapply IH; [exact HK|lia]|]. cbv beta. intros _ p' H. exact (R_trans HR H).
Qed.
Lemma case_first c : tcase [Tok KPipe] c -> exists r, yield c = KPipe :: r.
Proof. intros H. destruct H. cbn. eauto. Qed.
Lemma cases_len cs : Forall (tcase [Tok KPipe]) cs -> length cs <= length (yields cs).
Proof. apply yields_len. intros t H. destruct (case_first H) as (r & ->). discriminate. Qed.
Lemma cases_stop cs ks : Forall (tcase [Tok KPipe]) cs -> fieldstop (yields cs ++ KSemicolon :: ks).
Proof. intros [|c l H _]; [eexists _, _; cbn; eauto|]. destruct (case_first H) as (r & E). cbn. rewrite E. eexists _, _; cbn; eauto. Qed.

Lemma e_value n m p p1 q x ann e ks : Started p m p1 -> R p1 q x -> annot ann -> ex e ->
  K q = KLet :: KName :: yields ann ++ KEquals :: yield e ++ KSemicolon :: ks -> 10 * cnt q + 10 <= n ->
  wp (value_item n m) q (fun _ p' => R p p' [Node ValueItem (x ++ Tok KLet :: name :: ann ++ [Tok KEquals; e; Tok KSemicolon])]).
Proof.
  intros Hs HR Ha He HK Hf. unfold value_item. rewrite K_cnt, HK in Hf. fs. fs. fcalls ann e_annotation; [len|]. fs.
  fcall e exprs_fwd; [eexists _, _; split; [reflexivity|]; cbn; tauto|len|]. fs. fs. fs. repeat (cbn [app] in HC; rewrite <- ?app_assoc in HC). apply (RC_R HC).
Qed.
Lemma e_type n m p p1 q x ps y pipe c cs ks : Started p m p1 -> R p1 q x -> params ps -> optional [Tok KExport] y -> optional [Tok KPipe] pipe -> tcase pipe c -> Forall (tcase [Tok KPipe]) cs ->
  K q = KType :: KName :: yields ps ++ KEquals :: yields y ++ yield c ++ yields cs ++ KSemicolon :: ks -> 10 * cnt q + 10 <= n ->
  wp (type_item n m) q (fun _ p' => R p p' [Node TypeItem (x ++ Tok KType :: name :: ps ++ Tok KEquals :: y ++ c :: cs ++ [Tok KSemicolon])]).
Proof.
  intros Hs HR Hp Hy Hpipe Hc Hcs HK Hf. unfold type_item. rewrite K_cnt, HK in Hf. fs. fs. fcalls ps e_params; [len|]. fs.
  assert (Hfirst : exists k r, yield c ++ yields cs ++ KSemicolon :: ks = k :: r /\ k <> KExport).
  { destruct Hc. destruct Hpipe; cbn; eexists _, _; (split; [reflexivity|discriminate]). }
  eapply f_call with (t := y) (ks := yield c ++ yields cs ++ KSemicolon :: ks); [exact HR|exact HK| |].
  { match goal with |- wp _ ?q _ => pose proof (Rr q) as HR5 end. destruct Hy; cbn [yields yield flat_map app] in HK; eapply f_at; [exact HR5|exact HK| |exact HR5|exact HK|].
    - destruct Hfirst as (k & r & E & Hk). rewrite E. replace (is_kind (hd_error (k :: r)) KExport) with false by (symmetry; destruct (is_kind (hd_error (k :: r)) KExport) eqn:F; auto; apply is_kind_iff in F; cbn in F; congruence). intros. fs. auto.
    - clear HR5 HK. intros ? HR5 HK. ev. eapply wp_mono; [eapply e_bump; exact HK|]. cbv beta. intros _ p' H. exact (R_trans HR5 H). }
  clear HR HK Hfirst. intros _ z1 HR HK.
  eapply f_call1 with (t := c); [exact HR|exact HK|eapply e_case; [exact Hc|exact Hpipe|exact HK|apply cases_stop; auto|len]|]. clear HR HK. intros _ z2 HR HK.
  eapply f_call with (t := cs); [exact HR|exact HK| |].
  { apply e_while_at with (P := tcase [Tok KPipe]) (rest := KSemicolon :: ks); auto; try discriminate.
    - apply case_first.
    - intros c' z3 r Hc' HKq Hr Hq. eapply e_case; eauto; [|revert Hq; rewrite (K_cnt z2), HK; intros; lens].
      destruct Hr as [Hr| ->]; [destruct r as [|k r]; [discriminate|]; injection Hr as ->|]; eexists _, _; eauto.
    - pose proof (cases_len Hcs). lens. }
  clear HR HK. intros _ z3 HR HK. fs. fs. fs. repeat (cbn [app] in HC; rewrite <- ?app_assoc in HC). apply (RC_R HC).
Qed.
Lemma e_item n p it ks : item_tree it -> K p = yield it ++ ks -> 10 * cnt p + 20 <= n -> wp (item n) p (fun _ p' => R p p' [it]).
Proof.
  intros Hi HK Hf. pose proof (Rr p) as HR. unfold item. destruct Hi as [x ann e Hx Ha He|x ps y pipe c cs Hx Hp Hy Hpipe Hc Hcs|nm l Hn Hl]; begin Hf HK.
  - destruct Hx; cbn [yields yield flat_map app] in HK, Hf.
    + fs. fs. fs. fs. eapply wp_mono; [eapply e_value; [exact Hs|exact HR0|exact Ha|exact He|exact HK|len]|]. cbv beta. intros _ p' H. exact (R_trans HR H).
    + fs. fs. fs. fs. fs. eapply wp_mono; [eapply e_value; [exact Hs|exact HR0|exact Ha|exact He|exact HK|len]|]. cbv beta. intros _ p' H. exact (R_trans HR H).
  - destruct Hx; cbn [flat_map app yield] in HK, Hf.
    + fs. fs. fs. fs. fs. eapply wp_mono; [eapply e_type; [exact Hs|exact HR0|exact Hp|exact Hy|exact Hpipe|exact Hc|exact Hcs|exact HK|len]|]. cbv beta. intros _ p' H. exact (R_trans HR H).
    + fs. fs. fs. fs. fs. fs. eapply wp_mono; [eapply e_type; [exact Hs|exact HR0|exact Hp|exact Hy|exact Hpipe|exact Hc|exact Hcs|exact HK|len]|]. cbv beta. intros _ p' H. exact (R_trans HR H).
  - fs. fs. fs. fs. fs. fs. fs. 
    eapply f_call with (t := nm); [exact HR0|exact HK| |].
    { match goal with |- wp _ ?q _ => pose proof (Rr q) as HR5 end. destruct Hn; cbn [yields yield name flat_map app] in HK.
      - destruct Hl; cbn [yields yield name flat_map app] in HK; fs; fs; auto.
      - fs. eapply wp_mono; [eapply e_name; exact HK|]. cbv beta. intros _ p' H. exact (R_trans HR5 H). }
    clear HR0 HK. intros _ ? HR0 HK.
    eapply f_call with (t := l); [exact HR0|exact HK| |].
    { match goal with |- wp _ ?q _ => pose proof (Rr q) as HR5 end. destruct Hl as [|l Hl]; cbn [yields yield name flat_map app] in HK.
      - fs; fs; auto.
      - rewrite flat_map_app, app_nil_r in HK. cbn in HK. rewrite <- app_assoc in HK. fs. unfold exposed_list. fs. fs.
        eapply f_call with (t := l); [exact HR1|exact HK|eapply e_commas; [exact Hl|exact HK|]|].
        + norm Hf. lens.
        + clear HR1 HK. intros _ ? HR1 HK. cbn [app] in HK. fs. fs. fs. done. }
    clear HR0 HK. intros _ ? HR0 HK. fs. fs. fs. fs. fs. done.
Qed.
