(** Histories of a heap: everything a client can do with it, in any order. *)
From Verif Require Import Ir Heap HeapSpec HeapProofs HeapFacts.
Set Implicit Arguments.

(** bytecode.rs:377-381 [maybe_gc]: collect when more than half of the capacity is in use
    ([allocated > capacity / 2] on byte counts that are multiples of 8). *)
Definition maybe_gc (h : heap) (roots : list addr) : option (heap * list addr) :=
  if hcap h <? 2 * allocated h then collect h roots 0 else Some (h, roots).

(** [hist h objs]: [h] is reached from a new heap by allocations of objects with at most 64 fields that
    point to objects still present, allocations of strings, and collections that ask for a multiple
    of 8 bytes; [objs] are the addresses of the objects present. *)
Inductive hist : heap -> list addr -> Prop :=
| hist_new : hist heap_new []
| hist_obj h objs tag vs h' a :
    hist h objs -> length vs <= 64 -> (forall c, In (HPtr c) vs -> In c objs) ->
    alloc_obj h tag vs = Some (h', a) -> hist h' (a :: objs)
| hist_str h objs tag bs h' a :
    hist h objs -> alloc_str h tag bs = Some (h', a) -> hist h' (a :: objs)
| hist_gc h objs roots k h' roots' objs' :
    hist h objs -> (forall r, In r roots -> In r objs) ->
    collect h roots (8 * k) = Some (h', roots') ->
    tiles (hmem h') (hbump h') (hcap h') objs' -> hist h' objs'.

Lemma tiles_fun m a c l : tiles m a c l -> forall l', tiles m a c l' -> l = l'.
Proof.
  induction 1 as [|a c s b l Ha Hs HT IH]; intros l' H'.
  - inversion H' as [|? ? s b l'' Ha' Hs' HT']; subst; auto. apply tiles_le in HT'. unfold hdr_size in *. lia.
  - inversion H' as [|? ? s' b' l'' Ha' Hs' HT']; subst.
    + apply tiles_le in HT. unfold hdr_size in *. lia.
    + rewrite Ha in Ha'. injection Ha' as <- <-. f_equal. auto.
Qed.

Lemma ceil8 n : (8 * n + 7) / 8 = n.
Proof. replace (8 * n + 7) with (7 + n * 8) by lia. rewrite Nat.div_add by lia. reflexivity. Qed.
Lemma div24 n : 8 * n / 24 = n / 3.
Proof. replace 24 with (8 * 3) by lia. apply Nat.div_mul_cancel_l; lia. Qed.

Lemma hist_inv h objs : hist h objs -> wf_heap h objs /\ dst_ok h /\ 32 <= hcap h.
Proof.
  induction 1 as [|h objs tag vs h' a H IH Hl Hv E|h objs tag bs h' a H IH E|h objs roots k h' roots' objs' H IH Hr E HT].
  - split; [constructor; [constructor|intros a []]|]. split; [unfold dst_ok; cbn; lia|cbn; lia].
  - destruct IH as (W & D & C). destruct (alloc_obj_spec _ W Hv Hl E) as (W' & _ & _ & Ec & Ed & _).
    unfold dst_ok in *. rewrite Ec, Ed. auto.
  - destruct IH as (W & D & C). destruct (alloc_str_spec _ _ W E) as (W' & _ & _ & Ec & Ed & _).
    unfold dst_ok in *. rewrite Ec, Ed. auto.
  - destruct IH as (W & D & C). destruct (collect_spec roots (8 * k) W Hr) as (live & _ & _ & _ & Hc).
    destruct (Hc (or_introl D)) as (h2 & f & objs2 & E2 & W2 & _ & _ & _ & Hcap & _ & _ & _ & _ & Hdst).
    rewrite E in E2. injection E2 as <- _. pose proof (tiles_fun (wf_tiles W2) HT) as ->. split; auto.
    split; [|lia]. unfold dst_ok in *. destruct Hdst as [[G1 G2]|[G1 G2]]; [rewrite G1, G2; auto|].
    set (w := list_sum (map (size_at (hmem h)) live)) in *.
    replace (Nat.max (Nat.max (8 * w * 4) (8 * hcap h)) (8 * k + 8 * w)) with (8 * Nat.max (Nat.max (4 * w) (hcap h)) (k + w)) in G1, G2 by lia.
    rewrite ceil8 in G1. rewrite div24 in G2. rewrite G1, G2. auto.
Qed.

Lemma hist_collect h objs roots k :
  hist h objs -> (forall r, In r roots -> In r objs) ->
  exists h' f objs',
    collect h roots (8 * k) = Some (h', map f roots) /\ hist h' objs' /\
    (forall a, reach (hmem h) roots a -> In (f a) objs') /\
    (forall a', In a' objs' -> exists a, reach (hmem h) roots a /\ f a = a') /\
    (forall a b, reach (hmem h) roots a -> reach (hmem h) roots b -> f a = f b -> a = b) /\
    (forall v t, (forall a, v = HPtr a -> reach (hmem h) roots a) -> denotes (hmem h) v t -> denotes (hmem h') (hmap f v) t) /\
    4 * allocated h' <= hcap h' /\ k + allocated h' <= hcap h'.
Proof.
  intros H Hr. destruct (hist_inv H) as (W & D & C).
  destruct (collect_spec roots (8 * k) W Hr) as (live & Hnd & Hlive & Hin & Hc).
  destruct (Hc (or_introl D)) as (h' & f & objs' & E & W' & Eo & Hmono & Hsame & Hcap & Hal & H4 & Hef & _ & _).
  exists h', f, objs'. split; auto. split; [exact (hist_gc roots k H Hr E (wf_tiles W'))|].
  split; [intros a Ha; subst objs'; apply in_map; apply Hlive; auto|].
  split. { intros a' Ha'. subst objs'. apply in_map_iff in Ha' as (a & Ea & Ha). exists a. split; auto. apply Hlive; auto. }
  split. { intros a b Ha Hb Eab. apply Hlive in Ha, Hb. destruct (Nat.lt_trichotomy a b) as [Hl|[Hl|Hl]]; auto.
    - specialize (Hmono _ _ Ha Hb Hl). lia.
    - specialize (Hmono _ _ Hb Ha Hl). lia. }
  split. { intros v t Hv Ht. eapply (@denotes_same f (hmem h) (hmem h') (reach (hmem h) roots) objs); eauto.
    - intros a Ha. apply W. apply Hin, Hlive, Ha.
    - intros a c Ha Hp. eapply reach_step; eauto.
    - intros a Ha. apply Hsame, Hlive, Ha. }
  lia.
Qed.

(** After [maybe_gc] at most half of the capacity is in use. *)
Lemma maybe_gc_room h objs roots :
  hist h objs -> (forall r, In r roots -> In r objs) ->
  exists h' roots' objs', maybe_gc h roots = Some (h', roots') /\ hist h' objs' /\ hcap h <= hcap h' /\
    2 * allocated h' <= hcap h' /\ (forall r, In r roots' -> In r objs') /\
    exists f, roots' = map f roots /\
      (forall v t, (forall a, v = HPtr a -> reach (hmem h) roots a) -> denotes (hmem h) v t -> denotes (hmem h') (hmap f v) t).
Proof.
  intros H Hr. unfold maybe_gc. destruct (Nat.ltb_spec (hcap h) (2 * allocated h)) as [Hlt|Hge].
  - destruct (hist_inv H) as (W & D & C). destruct (collect_spec roots 0 W Hr) as (live & Hnd & Hlive & Hin & Hc).
    destruct (Hc (or_introl D)) as (h1 & f1 & o1 & E1 & _ & _ & _ & _ & Hcap & _).
    destruct (hist_collect roots 0 H Hr) as (h' & f & objs' & E & H' & R1 & R2 & R3 & R4 & R5 & _).
    change (8 * 0) with 0 in E. rewrite E in E1. injection E1 as <- _.
    exists h', (map f roots), objs'. split; auto. split; auto. split; auto. split; [lia|]. split.
    + intros r Hin'. apply in_map_iff in Hin' as (x & <- & Hx). apply R1. constructor; auto.
    + exists f. split; auto.
  - exists h, roots, objs. split; auto. split; auto. split; auto. split; auto. split; auto.
    exists (fun x => x). rewrite map_id. split; auto. intros v t _ Ht. rewrite hmap_id. auto.
Qed.
Lemma maybe_gc_cap h objs roots h' roots' :
  hist h objs -> (forall r, In r roots -> In r objs) -> maybe_gc h roots = Some (h', roots') -> 2 * allocated h' <= hcap h' /\ hcap h <= hcap h'.
Proof.
  intros H Hr E. destruct (maybe_gc_room roots H Hr) as (h2 & r2 & o2 & E2 & _ & Hc & Ha & _). rewrite E in E2. injection E2 as <- <-. auto.
Qed.
