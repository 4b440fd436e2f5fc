(** Properties of the garbage-collected heap: C04, C05, C06.  [hist h objs] (HeapRun.v): [h] is any heap
    reached by any sequence of allocations and collections, holding the objects [objs]. *)
From Verif Require Import Ir Heap HeapSpec HeapProofs HeapFacts HeapRun.

(** C04.  In every reachable heap, for every set of roots, a collection succeeds; afterwards the roots
    and everything reachable from them denote the same finite trees (tags, bytes, fields in order),
    distinct objects stay distinct (sharing is neither lost nor introduced), integers are unchanged
    ([hmap f] only moves pointers) and exactly the reachable objects are retained. *)
Theorem C04_collection_preserves_live_data :
  forall (h : heap) (objs roots : list addr) (k : nat),
    hist h objs -> (forall r, In r roots -> In r objs) ->
    exists (h' : heap) (f : addr -> addr) (objs' : list addr),
      collect h roots (8 * k) = Some (h', map f roots) /\ hist h' objs' /\
      (forall a, reach (hmem h) roots a -> In (f a) objs') /\
      (forall a', In a' objs' -> exists a, reach (hmem h) roots a /\ f a = a') /\
      (forall a b, reach (hmem h) roots a -> reach (hmem h) roots b -> f a = f b -> a = b) /\
      (forall v t, (forall a, v = HPtr a -> reach (hmem h) roots a) ->
                   denotes (hmem h) v t -> denotes (hmem h') (hmap f v) t) /\
      4 * allocated h' <= hcap h' /\ k + allocated h' <= hcap h'.
Proof. exact hist_collect. Qed.
Print Assumptions C04_collection_preserves_live_data.

(** Every object present denotes exactly one finite tree, so the statement above is about all of them. *)
Theorem C04_objects_denote :
  forall (h : heap) (objs : list addr) (a : addr),
    hist h objs -> In a objs ->
    exists t, denotes (hmem h) (HPtr a) t /\ forall t', denotes (hmem h) (HPtr a) t' -> t' = t.
Proof.
  intros h objs a H Ha. destruct (hist_inv H) as (W & _). destruct (denotes_total W a Ha) as [t Ht].
  exists t. split; auto. intros t' Ht'. eapply denotes_fun; eauto.
Qed.
Print Assumptions C04_objects_denote.

(** C04 fails for objects with more than 64 fields: the pointer bitmap has 64 bits, so in a release build
    the pointer stored in field 64 is recorded as field 0 being a pointer.  An object whose field 0 is
    the integer 5 and whose field 64 is a pointer is read back with the two confused. *)
Theorem C04_wide_objects_refuted :
  ~ (forall h objs tag vs h' a,
       hist h objs -> (forall c, In (HPtr c) vs -> In c objs) ->
       alloc_obj h tag vs = Some (h', a) -> obj_fields (hmem h') a = rev vs).
Proof.
  intros H.
  assert (E : exists h1, collect heap_new [] (8 * 128) = Some (h1, [])) by (eexists; vm_compute; reflexivity).
  destruct E as [h1 E1].
  assert (E2 : exists h2, alloc_obj h1 9%N [] = Some (h2, 125)).
  { vm_compute in E1. injection E1 as <-. eexists. vm_compute. reflexivity. }
  destruct E2 as [h2 E2].
  assert (T1 : tiles (hmem h1) (hbump h1) (hcap h1) []).
  { vm_compute in E1. injection E1 as <-. constructor. }
  assert (H1 : hist h1 []) by (apply (hist_gc [] 128 hist_new (fun r (f : In r []) => f) E1 T1)).
  assert (H2 : hist h2 [125]).
  { eapply hist_obj; [exact H1| | |exact E2]; [cbn; lia|intros c []]. }
  set (vs := HPtr 125 :: repeat (HInt 7) 63 ++ [HInt 5]).
  assert (E3 : exists h3 a, alloc_obj h2 9%N vs = Some (h3, a) /\ nth 0 (obj_fields (hmem h3) a) (HInt 0) = HPtr 5).
  { vm_compute in E1. injection E1 as <-. vm_compute in E2. injection E2 as <-. eexists _, _. split; [reflexivity|].
    vm_compute. reflexivity. }
  destruct E3 as (h3 & a & E3 & E4).
  rewrite (H h2 [125] 9%N vs h3 a H2) in E4; auto; [discriminate E4|].
  intros c Hc. subst vs. cbn in Hc. repeat (destruct Hc as [Hc|Hc]; [try discriminate; injection Hc as <-; left; reflexivity|]). destruct Hc.
Qed.
Print Assumptions C04_wide_objects_refuted.

(** C05.  Objects never overlap and lie inside the heap. *)
Theorem C05_objects_disjoint :
  forall (h : heap) (objs : list addr) (a b : addr),
    hist h objs -> In a objs -> In b objs ->
    (hbump h <= a /\ a + size_at (hmem h) a <= hcap h) /\
    (a = b \/ a + size_at (hmem h) a <= b \/ b + size_at (hmem h) b <= a).
Proof.
  intros h objs a b H Ha Hb. destruct (hist_inv H) as ([HT _] & _).
  pose proof (tiles_in HT _ Ha). pose proof (tiles_disjoint HT _ _ Ha Hb). tauto.
Qed.
Print Assumptions C05_objects_disjoint.

(** C05.  An object with at most 64 fields reads back the tag and the values it was built from (the
    values come off the stack last field first), it does not overlap anything, and every other value
    still denotes the same tree. *)
Theorem C05_object_read_back :
  forall (h : heap) (objs : list addr) (tag : N) (vs : list hval) (h' : heap) (a : addr),
    hist h objs -> length vs <= 64 -> (forall c, In (HPtr c) vs -> In c objs) ->
    alloc_obj h tag vs = Some (h', a) ->
    tag_at (hmem h') a = tag /\ obj_fields (hmem h') a = rev vs /\ size_at (hmem h') a = 3 + length vs /\
    a + size_at (hmem h') a = hbump h /\
    (forall v t, (forall c, v = HPtr c -> In c objs) -> denotes (hmem h) v t -> denotes (hmem h') v t).
Proof.
  intros h objs tag vs h' a H Hl Hv E. destruct (hist_inv H) as (W & _).
  destruct (alloc_obj_spec _ W Hv Hl E) as (_ & B & _ & _ & _ & Fr & S & T & F & _).
  split; [auto|]. split; [auto|]. split; [auto|]. split; [rewrite S; lia|]. intros v t Hp Hd. eapply framed_denotes; eauto.
Qed.
Print Assumptions C05_object_read_back.

(** C05.  A string object reads back its tag and bytes; every other value still denotes the same tree. *)
Theorem C05_string_read_back :
  forall (h : heap) (objs : list addr) (tag : N) (bs : list N) (h' : heap) (a : addr),
    hist h objs -> alloc_str h tag bs = Some (h', a) ->
    tag_at (hmem h') a = tag /\ obj_bytes (hmem h') a = bs /\
    a + size_at (hmem h') a = hbump h /\
    (forall v t, (forall c, v = HPtr c -> In c objs) -> denotes (hmem h) v t -> denotes (hmem h') v t).
Proof.
  intros h objs tag bs h' a H E. destruct (hist_inv H) as (W & _).
  destruct (alloc_str_spec _ _ W E) as (_ & B & _ & _ & _ & Fr & S & T & Bs & _).
  split; auto. split; auto. split; [rewrite S; lia|]. intros v t Hp Hd. eapply framed_denotes; eauto.
Qed.
Print Assumptions C05_string_read_back.

(** C06, what holds.  The machine calls [maybe_gc] after every allocation.  After it, for any roots, the
    next allocation of up to 16 words (an object with at most 13 fields, a string of at most 104 bytes)
    cannot run out of memory; in general every request of at most half the capacity succeeds. *)
Theorem C06_small_requests_succeed_partial :
  forall (h : heap) (objs roots : list addr),
    hist h objs -> (forall r, In r roots -> In r objs) ->
    exists h' roots' objs', maybe_gc h roots = Some (h', roots') /\ hist h' objs' /\
      (forall tag vs, length vs <= 13 -> exists r, alloc_obj h' tag vs = Some r) /\
      (forall tag bs, length bs <= 104 -> exists r, alloc_str h' tag bs = Some r) /\
      (forall tag vs, 2 * (3 + length vs) <= hcap h' -> exists r, alloc_obj h' tag vs = Some r).
Proof.
  intros h objs roots H Hr. destruct (maybe_gc_room roots H Hr) as (h' & roots' & objs' & E & H' & Hc & Ha & _).
  destruct (hist_inv H) as (_ & _ & C). destruct (hist_inv H') as ([HT' _] & _ & C'). apply tiles_le in HT'.
  unfold allocated in Ha.
  assert (G : forall tag vs, 2 * (3 + length vs) <= hcap h' -> exists r, alloc_obj h' tag vs = Some r).
  { intros tag vs Hl. unfold alloc_obj. destruct (proj1 (alloc_enough h' tag (length vs))) as [[h2 a2] E2]; [unfold hdr_size; lia|].
    rewrite E2. eauto. }
  exists h', roots', objs'. split; auto. split; auto. split; [intros; apply G; lia|]. split; auto.
  intros tag bs Hl. unfold alloc_str.
  assert (words_for (length bs) <= 13) by (unfold words_for; apply (Nat.div_le_mono _ 111 8); lia).
  destruct (proj1 (alloc_enough h' tag (words_for (length bs)))) as [[h2 a2] E2]; [unfold hdr_size; lia|].
  rewrite E2. eauto.
Qed.
Print Assumptions C06_small_requests_succeed_partial.

(** C06 as stated fails: growth only happens in a collection, and a collection only happens after an
    allocation.  A heap that holds a single live 100-byte string cannot allocate 200 more bytes. *)
Theorem C06_large_string_refuted :
  ~ (forall h objs tag bs, hist h objs -> length bs <= 200 -> 2 * allocated h <= hcap h ->
       exists r, alloc_str h tag bs = Some r).
Proof.
  intros H.
  assert (E : exists h1, alloc_str heap_new 0%N (repeat 0%N 100) = Some (h1, 16)) by (eexists; vm_compute; reflexivity).
  destruct E as [h1 E1]. assert (H1 : hist h1 [16]) by (eapply hist_str; [apply hist_new|exact E1]).
  destruct (H h1 [16] 0%N (repeat 0%N 200) H1) as [r E2].
  - rewrite repeat_length. lia.
  - vm_compute in E1. injection E1 as <-. cbn. lia.
  - vm_compute in E1. injection E1 as <-. vm_compute in E2. discriminate.
Qed.
Print Assumptions C06_large_string_refuted.

(** Collections that ask for a number of bytes that is not a multiple of 8 round the capacity up but
    not the relocation table: with one empty string present, asking for 263 bytes leaves a heap whose
    next plain collection indexes the table out of bounds.  (The bytecode runner never performs that
    plain collection: its next collection always grows.) *)
Definition the {A} (d : A) (o : option A) : A := match o with Some x => x | None => d end.
Definition ok {A} (o : option A) : bool := match o with Some _ => true | None => false end.
Lemma ok_the A (d : A) o : ok o = true -> o = Some (the d o).
Proof. destruct o; [auto|discriminate]. Qed.
Theorem C04_unaligned_growth_refuted :
  exists h1 a1 h2 roots2,
    alloc_str heap_new 0%N [] = Some (h1, a1) /\
    collect h1 [a1] 263 = Some (h2, roots2) /\
    collect h2 roots2 0 = None.
Proof.
  set (s1 := alloc_str heap_new 0%N []). set (x1 := the (heap_new, 0) s1).
  set (s2 := collect (fst x1) [snd x1] 263). set (x2 := the (heap_new, []) s2).
  exists (fst x1), (snd x1), (fst x2), (snd x2). rewrite <- !surjective_pairing.
  split; [apply ok_the; vm_compute; reflexivity|]. split; [apply ok_the; vm_compute; reflexivity|].
  assert (E : ok (collect (fst x2) (snd x2) 0) = false) by (vm_compute; reflexivity).
  destruct (collect (fst x2) (snd x2) 0); [discriminate|reflexivity].
Qed.
Print Assumptions C04_unaligned_growth_refuted.

(** Hypotheses are met: a heap with an object of two fields pointing at a string and itself collected. *)
Example heap_example : exists h objs a s, hist h objs /\ objs = [a; s] /\
  denotes (hmem h) (HPtr a) (LObj 7 [] [LInt 1; LObj 3 [104; 105]%N [LInt 0]]).
Proof.
  set (s1 := alloc_str heap_new 3%N [104; 105]%N). set (x1 := the (heap_new, 0) s1).
  set (s2 := alloc_obj (fst x1) 7%N [HPtr 28; HInt 1]). set (x2 := the (heap_new, 0) s2).
  assert (A1 : snd x1 = 28) by (vm_compute; reflexivity).
  assert (E1 : s1 = Some (fst x1, 28)).
  { rewrite <- A1, <- surjective_pairing. apply ok_the. vm_compute. reflexivity. }
  assert (A2 : snd x2 = 23) by (vm_compute; reflexivity).
  assert (E2 : s2 = Some (fst x2, 23)).
  { rewrite <- A2, <- surjective_pairing. apply ok_the. vm_compute. reflexivity. }
  assert (H1 : hist (fst x1) [28]) by (eapply hist_str; [apply hist_new|exact E1]).
  assert (H2 : hist (fst x2) [23; 28]).
  { eapply hist_obj; [exact H1| | |exact E2]; [cbn; lia|].
    intros c [Hc|[Hc|[]]]; [injection Hc as <-; left; auto|discriminate]. }
  exists (fst x2), [23; 28], 23, 28. split; auto. split; auto.
  assert (F1 : obj_fields (hmem (fst x2)) 23 = [HInt 1; HPtr 28]) by (vm_compute; reflexivity).
  assert (F2 : obj_fields (hmem (fst x2)) 28 = [HInt 0]) by (vm_compute; reflexivity).
  replace (LObj 7 [] [LInt 1; LObj 3 [104; 105]%N [LInt 0]]) with
    (LObj (tag_at (hmem (fst x2)) 23) (obj_bytes (hmem (fst x2)) 23)
      [LInt 1; LObj (tag_at (hmem (fst x2)) 28) (obj_bytes (hmem (fst x2)) 28) [LInt 0]]) by (vm_compute; reflexivity).
  constructor. rewrite F1. constructor; [constructor|]. constructor; [|constructor].
  constructor. rewrite F2. repeat constructor.
Qed.
