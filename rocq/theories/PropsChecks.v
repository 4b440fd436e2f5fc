(** Properties C32 (matches), C33 (number literals), C34 (printing), C35 (main), C42 (unused). *)
From Verif Require Import Eval Vm ArithProofs Checks ChecksProofs PrintProofs PrintDecode.

(** C33.  A (non-empty) literal is accepted iff it is a decimal numeral below 2^64 ... *)
Theorem C33_accepted_iff :
  forall s, s <> [] ->
    (check_number s = None <-> Forall is_digit s /\ (numeral_value s < 2 ^ 64)%N).
Proof. exact number_accept. Qed.
Print Assumptions C33_accepted_iff.
(** ... code generation then reads exactly that number (and does not panic) ... *)
Theorem C33_denotes :
  forall s, s <> [] -> check_number s = None -> rust_parse_u64 s = Some (numeral_value s).
Proof. exact number_value. Qed.
Print Assumptions C33_denotes.
(** ... and the two error messages are given for the right reason: an illegal character, reached
    before the number got too large, or a prefix that is too large. *)
Theorem C33_errors :
  forall s, s <> [] ->
  (check_number s = Some InvalidDigit <->
     exists a c b, s = a ++ c :: b /\ Forall is_digit a /\ ~ is_digit c /\ (numeral_value a < 2 ^ 64)%N) /\
  (check_number s = Some Overflow <->
     exists a b, s = a ++ b /\ Forall is_digit a /\ (2 ^ 64 <= numeral_value a)%N).
Proof. exact number_errors. Qed.
Print Assumptions C33_errors.
Example C33_cases :
  check_number [49;56;52;52;54;55;52;52;48;55;51;55;48;57;53;53;49;54;49;53]%N = None /\
  check_number [49;56;52;52;54;55;52;52;48;55;51;55;48;57;53;53;49;54;49;54]%N = Some Overflow /\
  check_number [49; 95; 48]%N = Some InvalidDigit /\ rust_parse_u64 [48; 48; 55]%N = Some 7%N.
Proof. repeat split. Qed.

(** C32.  A match on a type with constructors [all] that draws no diagnostics has exactly one case per
    constructor. *)
Theorem C32_accepted_is_exhaustive :
  forall defs t s all cs,
    matches_on t s -> defs s = Some (CtorList all) ->
    check_match defs (Some t) (map Some cs) = Some [] ->
    forall c, In c all -> count_occ Nat.eq_dec cs c = 1.
Proof. exact check_match_clean. Qed.
Print Assumptions C32_accepted_is_exhaustive.
(** At run time the scrutinee's constructor selects that case: evaluation continues with it. *)
Theorem C32_runs_the_branch :
  forall defs t s all brs ord n en d c fs,
    matches_on t s -> defs s = Some (CtorList all) ->
    check_match defs (Some t) (map (fun br => Some (fst (fst br))) brs) = Some [] ->
    eval_o ord n en d = Ok (VComp c fs) -> In c all ->
    exists l1 bs b l2, brs = l1 ++ ((c, bs), b) :: l2 /\
      ~ In c (map (fun br => fst (fst br)) l1) /\ ~ In c (map (fun br => fst (fst br)) l2) /\
      (length bs = length fs -> eval_o ord n en (EMatch d brs) = eval_o ord n (add_all en bs fs) b).
Proof. exact exhaustive_runs. Qed.
Print Assumptions C32_runs_the_branch.
(** The diagnostics are exactly: one per repeated constructor (at the repetition), and one listing the
    uncovered constructors, in order of declaration, if there are any. *)
Theorem C32_diagnostics :
  forall defs t s all cs,
    matches_on t s -> defs s = Some (CtorList all) ->
    exists ds, check_match defs (Some t) (map Some cs) = Some ds /\
      (forall d, In d ds <->
         (exists i c, d = DUnreachable i /\ nth_error cs i = Some c /\ In c all /\ In c (firstn i cs)) \/
         (d = DMissing (filter (fun c => negb (existsb (Nat.eqb c) cs)) all) /\ exists c, In c all /\ ~ In c cs)).
Proof. exact check_match_reports. Qed.
Print Assumptions C32_diagnostics.
Example C32_cases :
  let defs := fun s => if Nat.eqb s 100 then Some (CtorList [101; 102; 103]) else None in
  check_match defs (Some (MNamed 100)) [Some 102; Some 101; Some 103] = Some [] /\
  check_match defs (Some (MFolded (MNamed 100))) [Some 102; Some 102] = Some [DUnreachable 1; DMissing [101; 103]] /\
  eval_o FnFirst 0 [] (EMatch (EConstruct 102 [] [EInt 5]) [((101, []), EInt 0); ((102, [7]), EName 7); ((103, []), EInt 1)]) = Ok (VInt 5).
Proof. repeat split. Qed.

(** C42.  [mentioned items x]: some reference resolves to [x], or [x] is a type variable, or [x] is
    exported.  [ctor_of items c t]: [c] is a constructor of the type [t].  The hypothesis holds because
    symbols are globally fresh. *)
Theorem C42_unused_iff :
  forall items d,
    (forall c t t', ctor_of items c t -> ctor_of items c t' -> t = t') ->
    (In d (unused items) <->
     (exists it, In it items /\ In d (ui_defs it)) /\ ud_kind d <> KModule /\ hd_error (ud_name d) <> Some 95%N /\
     ~ mentioned items (ud_sym d) /\
     ~ (exists c, ctor_of items c (ud_sym d) /\ mentioned items c)).
Proof. exact unused_spec. Qed.
Print Assumptions C42_unused_iff.
(** Two items: [type T = A | B] with [A] used by an exported value; [x], [_y] unused. *)
Definition ex_items : list uitem :=
  [mkUItem [mkUDef 1 (KType false) false [84]; mkUDef 2 KCtor false [65]; mkUDef 3 KCtor false [66]]%N [];
   mkUItem [mkUDef 4 KValue true [118]; mkUDef 5 KValue false [120]; mkUDef 6 KValue false [95; 121]]%N [2]].
Example C42_hypotheses_met :
  (forall c t t', ctor_of ex_items c t -> ctor_of ex_items c t' -> t = t') /\
  map ud_sym (unused ex_items) = [3; 5].
Proof.
  split; [|reflexivity]. intros c t t' (it & d & H1 & H2 & H3 & H4 & H5) (it' & d' & H1' & H2' & H3' & H4' & H5').
  cbn in H1, H1'. destruct H1 as [<-|[<-|[]]]; destruct H1' as [<-|[<-|[]]]; cbn in H5, H5'; congruence.
Qed.

(** C34.  Values of one type whose strings contain neither quotes nor backslashes print differently. *)
Theorem C34_printing_injective_partial :
  forall (sig : ty -> name -> option (list ty)) (names : name -> list N) (v1 v2 : obs) (t : ty) (atom : bool),
    good_names sig names -> has_ty sig v1 t -> has_ty sig v2 t -> clean v1 -> clean v2 ->
    write_value names atom v1 = write_value names atom v2 -> v1 = v2.
Proof. exact print_inj. Qed.
Print Assumptions C34_printing_injective_partial.
(** Type 100: constructors 101 ("A") without fields and 102 ("C") with two strings. *)
Definition ex_sig (t : ty) (c : name) : option (list ty) :=
  match t with
  | TNamed 100 [] => if Nat.eqb c 101 then Some [] else if Nat.eqb c 102 then Some [TString; TString] else None
  | _ => None
  end.
Definition ex_names (c : name) : list N := if Nat.eqb c 101 then [65%N] else [67%N].
Lemma ex_good_names : good_names ex_sig ex_names.
Proof.
  split.
  - intros t c fts _. unfold ex_names. destruct (Nat.eqb c 101); split; try discriminate; repeat constructor.
  - intros t c c' fts fts' H H'. unfold ex_sig in *. unfold ex_names.
    destruct t as [| | | |n l| |]; try discriminate.
    do 101 (destruct n as [|n]; try discriminate). destruct l; [|discriminate].
    destruct (Nat.eqb_spec c 101), (Nat.eqb_spec c' 101); subst; try discriminate; auto.
    destruct (Nat.eqb_spec c 102), (Nat.eqb_spec c' 102); subst; try discriminate; auto.
Qed.
Example C34_hypotheses_met :
  good_names ex_sig ex_names /\ has_ty ex_sig (OComp 102 [OString [97; 10]%N; OString []]) (TNamed 100 []) /\
  clean (OComp 102 [OString [97; 10]%N; OString []]) /\
  write_value ex_names false (OComp 102 [OString [97; 10]%N; OString []]) = [67; 32; 34; 97; 92; 110; 34; 32; 34; 34]%N.
Proof. split; [exact ex_good_names|]. cbn. repeat (split; auto); repeat constructor. Qed.
(** C34, strings.  The printed form of a string without backslashes is printable ASCII between quotes, and
    decoding its escapes gives the string back. *)
Theorem C34_strings_decode_partial :
  forall (names : name -> list N) (atom : bool) (s : bytes),
    Forall (fun b => b < 256 /\ b <> 92)%N s ->
    exists body, write_value names atom (OString s) = 34%N :: body ++ [34%N] /\ unescape body = Some s /\
                 Forall (fun c => 32 <= c <= 126)%N body.
Proof. exact string_decodes. Qed.
Print Assumptions C34_strings_decode_partial.
Example C34_strings_hypotheses_met :
  Forall (fun b => b < 256 /\ b <> 92)%N [97; 10; 127; 255; 0]%N /\
  write_value ex_names false (OString [97; 10; 127; 255; 0]%N) =
    [34; 97; 92; 110; 92; 120; 55; 102; 92; 120; 102; 102; 92; 120; 48; 48; 34]%N.
Proof. split; [repeat constructor; lia || discriminate|reflexivity]. Qed.
(** The full property is false: a newline and the two characters backslash-n print the same, and so do
    C "a" "b\" \"c" and C "a\" \"b" "c". *)
Theorem C34_escape_ambiguous_refuted :
  exists v1 v2, v1 <> v2 /\ (forall sig, has_ty sig v1 TString /\ has_ty sig v2 TString) /\
    (forall names atom, write_value names atom v1 = write_value names atom v2).
Proof.
  exists (OString [10%N]), (OString [92; 110]%N). split; [discriminate|]. split; [intros; split; exact I|].
  intros; reflexivity.
Qed.
Print Assumptions C34_escape_ambiguous_refuted.
Theorem C34_quote_ambiguous_refuted :
  exists v1 v2, v1 <> v2 /\ has_ty ex_sig v1 (TNamed 100 []) /\ has_ty ex_sig v2 (TNamed 100 []) /\
    (forall names atom, write_value names atom v1 = write_value names atom v2).
Proof.
  exists (OComp 102 [OString [97]; OString [98; 34; 32; 34; 99]]%N), (OComp 102 [OString [97; 34; 32; 34; 98]; OString [99]]%N).
  split; [discriminate|]. split; [cbn; auto|]. split; [cbn; auto|]. intros; reflexivity.
Qed.
Print Assumptions C34_quote_ambiguous_refuted.

(** C35.  What is run: if every exported [main] has type string -> string, the FIRST one; an error
    otherwise. *)
Theorem C35_entry_point_partial :
  forall p,
    (forall n, find_main p = MainName n <->
       (forall d, In d (p_defs p) -> exported_main d -> vd_ty d = TFn [TString] TString) /\
       exists l1 d l2, p_defs p = l1 ++ d :: l2 /\ exported_main d /\ vd_name d = n /\
                       forall d', In d' l1 -> ~ exported_main d') /\
    (find_main p = MainNone <-> forall d, In d (p_defs p) -> ~ exported_main d) /\
    (find_main p = MainInvalid <-> exists d, In d (p_defs p) /\ exported_main d /\ vd_ty d <> TFn [TString] TString).
Proof. exact find_main_spec. Qed.
Print Assumptions C35_entry_point_partial.
(** When there is at most one exported [main], it is the one importers see. *)
Theorem C35_single_main_visible :
  forall p n d,
    find_main p = MainName n -> visible_export p main_text = Some d ->
    (forall d1 d2, In d1 (p_defs p) -> In d2 (p_defs p) -> exported_main d1 -> exported_main d2 -> d1 = d2) ->
    vd_name d = n.
Proof.
  intros p n d Hf Hv Hu. apply (find_main_spec p) in Hf as (_ & l1 & d' & l2 & E & Hm & <- & _).
  unfold visible_export in Hv. apply find_some in Hv as [Hin Hx]. apply in_rev in Hin.
  f_equal. apply Hu; auto. rewrite E; apply in_app_iff; right; left; auto.
  unfold exported_main. destruct (vd_export d); [|discriminate]. destruct (list_eq_dec _ _ _); [congruence|discriminate].
Qed.
Print Assumptions C35_single_main_visible.
(** With two exported mains the program runs one and importers see the other. *)
Definition two_mains : program := mkProgram []
  [mkValDef 1 (Some main_text) (TFn [TString] TString) (ELam [(3, TString)] (EString [49%N]));
   mkValDef 2 (Some main_text) (TFn [TString] TString) (ELam [(4, TString)] (EString [50%N]))].
Theorem C35_latest_main_refuted :
  exists p d, visible_export p main_text = Some d /\ vd_ty d = TFn [TString] TString /\
    do_eval_main (bytecode 50) p [] = MainOut [49%N] /\
    bytecode 50 p [ECall (EName (vd_name d)) [EString []]] = Ok [OString [50%N]].
Proof. exists two_mains, (nth 1 (p_defs two_mains) (mkValDef 0 None TInt (EInt 0))). repeat split. Qed.
Print Assumptions C35_latest_main_refuted.
Example C35_hypotheses_met :
  find_main two_mains = MainName 1 /\ find_main (mkProgram [] (skipn 1 (p_defs two_mains))) = MainName 2 /\
  visible_export (mkProgram [] (skipn 1 (p_defs two_mains))) main_text <> None.
Proof. repeat split. discriminate. Qed.
