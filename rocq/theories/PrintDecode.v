(** Printed strings can be read back: a decoder for the escapes, and the proof. *)
From Verif Require Import Eval Vm Checks PrintProofs.
Local Open Scope N_scope.

(** Specification: [\n], [\r] and [\xHH] with lower-case hexadecimal digits; everything else is itself. *)
Definition hex_value (c : N) : option N :=
  if (48 <=? c) && (c <=? 57) then Some (c - 48)
  else if (97 <=? c) && (c <=? 102) then Some (c - 87)
  else None.
Fixpoint unescape (l : list N) : option (list N) :=
  match l with
  | [] => Some []
  | 92 :: 110 :: r => option_map (cons 10) (unescape r)
  | 92 :: 114 :: r => option_map (cons 13) (unescape r)
  | 92 :: 120 :: h :: k :: r =>
    match hex_value h, hex_value k with
    | Some a, Some b => option_map (cons (16 * a + b)) (unescape r)
    | _, _ => None
    end
  | 92 :: _ => None
  | c :: r => option_map (cons c) (unescape r)
  end.

Lemma unescape_plain c r : c <> 92 -> unescape (c :: r) = option_map (cons c) (unescape r).
Proof.
  intros H. destruct c as [|q]; [reflexivity|].
  do 7 (try destruct q as [q|q|]; try reflexivity). congruence.
Qed.

Definition byte_form (b : N) : bool :=
  match show_byte b with
  | [c] => (c =? b) && (32 <=? c) && (c <=? 126)
  | [92; 110] => b =? 10
  | [92; 114] => b =? 13
  | [92; 120; h; k] =>
    match hex_value h, hex_value k with Some x, Some y => 16 * x + y =? b | _, _ => false end &&
    (32 <=? h) && (h <=? 126) && (32 <=? k) && (k <=? 126)
  | _ => false
  end.
Lemma byte_form_check : forallb byte_form all_bytes = true.
Proof. vm_compute. reflexivity. Qed.
Lemma show_byte_decode b r : b < 256 -> b <> 92 -> unescape (show_byte b ++ r) = option_map (cons b) (unescape r) /\
  Forall (fun c => 32 <= c <= 126) (show_byte b).
Proof.
  intros Hb Hn. pose proof byte_form_check as HF. rewrite forallb_forall in HF. specialize (HF b (byte_in Hb)).
  unfold show_byte in *. unfold byte_form, show_byte in HF.
  destruct ((32 <=? b) && (b <=? 126)) eqn:E.
  - simpl app. apply andb_true_iff in E as [E1 E2]. apply N.leb_le in E1, E2. split; [apply unescape_plain; auto|].
    repeat constructor; auto.
  - destruct (b =? 13) eqn:E1. { apply N.eqb_eq in E1. subst. split; [reflexivity|repeat constructor; lia]. }
    destruct (b =? 10) eqn:E2. { apply N.eqb_eq in E2. subst. split; [reflexivity|repeat constructor; lia]. }
    cbn [app]. rewrite !andb_true_iff, !N.leb_le in HF. destruct HF as ((((HF & ?) & ?) & ?) & ?).
    cbn [unescape].
    destruct (hex_value (hex_digit (b / 16))); [|discriminate].
    destruct (hex_value (hex_digit (b mod 16))); [|discriminate].
    apply N.eqb_eq in HF. rewrite HF. split; [reflexivity|].
    constructor; [lia|]. constructor; [lia|]. constructor; [auto|]. constructor; [auto|constructor].
Qed.
Lemma show_decodes s : Forall (fun b => b < 256 /\ b <> 92) s ->
  unescape (flat_map show_byte s) = Some s /\ Forall (fun c => 32 <= c <= 126) (flat_map show_byte s).
Proof.
  induction 1 as [|b s [Hb Hn] HF [IH1 IH2]]; cbn [flat_map]; [split; constructor|].
  destruct (show_byte_decode b (flat_map show_byte s) Hb Hn) as [E F]. rewrite E, IH1. split; [reflexivity|].
  apply Forall_app; auto.
Qed.
Lemma string_decodes (names : name -> list N) atom s : Forall (fun b => b < 256 /\ b <> 92) s ->
  exists body, write_value names atom (OString s) = 34 :: body ++ [34] /\ unescape body = Some s /\
               Forall (fun c => 32 <= c <= 126) body.
Proof. intros H. exists (flat_map show_byte s). split; [reflexivity|]. apply show_decodes; auto. Qed.
