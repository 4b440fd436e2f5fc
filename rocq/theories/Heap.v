(** The garbage-collected heap of the bytecode runner.  Models ticc-eval/src/heap.rs.

    Sizes and addresses are counted in 8-byte words: every allocation size is a multiple of 8
    (heap.rs:51, round_up 223-225) and the heap is a [Vec<u64>] (heap.rs:262-265), so all byte addresses
    are multiples of 8.  The u32 overflows of sizes above 4 GiB are not modelled. *)
From Verif Require Import Ir.

Notation addr := nat (only parsing).

(** A word of memory.  The first header word packs [size] and [mark] (heap.rs:245-251, two u32);
    payload words of strings are kept as the (at most 8) bytes written there. *)
Inductive cell : Type :=
| CHdr (size : nat) (mark : bool)
| CWord (n : N)
| CBytes (bs : list N).

Notation memory := (nat -> cell) (only parsing).
Definition upd (m : memory) (a : addr) (c : cell) : memory := fun x => if x =? a then c else m x.

(** heap.rs:10-14 [Heap]: [hcap] = bytes.raw.len()/8, [hdst] = move_dst. *)
Record heap := mkHeap { hcap : nat; hmem : memory; hbump : nat; hdst : list addr }.

(** heap.rs:4-8 [Value]. *)
Inductive hval := HInt (n : N) | HPtr (a : addr).

(** heap.rs:253-255: 24 bytes. *)
Definition hdr_size : nat := 3.

Definition size_at (m : memory) (a : addr) : nat := match m a with CHdr s _ => s | _ => 0 end.
Definition mark_at (m : memory) (a : addr) : bool := match m a with CHdr _ b => b | _ => false end.
Definition word_at (m : memory) (a : addr) : N := match m a with CWord n => n | _ => 0%N end.
Definition ptrs_at (m : memory) (a : addr) : N := word_at m (a + 1).
Definition tag_at (m : memory) (a : addr) : N := word_at m (a + 2).
Definition nfields (m : memory) (a : addr) : nat := size_at m a - hdr_size.

(** [1 << i] on u64 in a release build: the shift amount is taken modulo 64 (a debug build panics from
    64 on). *)
Definition shift1 (i : nat) : N := N.shiftl 1 (N.of_nat (i mod 64)).
(** [ptrs & (1 << i) != 0]. *)
Definition is_ptr (ptrs : N) (i : nat) : bool := negb (N.eqb (N.land ptrs (shift1 i)) 0).

(** heap.rs:17-26 [Heap::new]: 256 bytes. *)
Definition heap_new : heap := mkHeap 32 (fun _ => CWord 0) 32 (repeat 0 10).

(** heap.rs:50-67 [raw_alloc] for a payload of [n] words; [None] is the out-of-memory panic.  The
    payload keeps its old contents. *)
Definition raw_alloc (h : heap) (tag : N) (n : nat) : option (heap * addr) :=
  let total := hdr_size + n in
  if hbump h <? total then None
  else
    let a := hbump h - total in
    let m := upd (upd (upd (hmem h) a (CHdr total false)) (a + 1) (CWord 0)) (a + 2) (CWord tag) in
    Some (mkHeap (hcap h) m a (hdst h), a).

(** heap.rs:234-242 [put_int], [put_ptr]. *)
Definition put_field (m : memory) (a : addr) (i : nat) (v : hval) : memory :=
  match v with
  | HInt x => upd m (a + 3 + i) (CWord x)
  | HPtr p => let m' := upd m (a + 3 + i) (CWord (N.of_nat p)) in
              upd m' (a + 1) (CWord (N.lor (ptrs_at m' a) (shift1 i)))
  end.
(** bytecode.rs:262-270: the fields are popped from the stack and stored last field first. *)
Fixpoint put_fields (m : memory) (a : addr) (popped : list hval) : memory :=
  match popped with
  | [] => m
  | v :: r => put_fields (put_field m a (length r) v) a r
  end.
(** heap.rs:40-48 [alloc_object] followed by the stores of bytecode.rs:262-270. *)
Definition alloc_obj (h : heap) (tag : N) (popped : list hval) : option (heap * addr) :=
  match raw_alloc h tag (length popped) with
  | Some (h', a) => Some (mkHeap (hcap h') (put_fields (hmem h') a popped) (hbump h') (hdst h'), a)
  | None => None
  end.

(** heap.rs:223-225 [round_up], in words. *)
Definition words_for (len : nat) : nat := (len + 7) / 8.
(** Stores [bs] eight bytes per word. *)
Fixpoint put_bytes (n : nat) (m : memory) (a : addr) (bs : list N) : memory :=
  match n with
  | O => m
  | S k => put_bytes k (upd m a (CBytes (firstn 8 bs))) (S a) (skipn 8 bs)
  end.
(** heap.rs:28-38 [alloc_bytes] followed by [copy_from_slice].  Simplification: the padding bytes of
    the last word, which no reader looks at, are dropped. *)
Definition alloc_str (h : heap) (tag : N) (bs : list N) : option (heap * addr) :=
  let n := words_for (length bs) in
  match raw_alloc h tag n with
  | Some (h', a) => Some (mkHeap (hcap h') (put_bytes n (hmem h') (a + 3) bs) (hbump h') (hdst h'), a)
  | None => None
  end.

(** heap.rs:131-145 [obj_with_fields]. *)
Definition obj_fields (m : memory) (a : addr) : list hval :=
  map (fun i => if is_ptr (ptrs_at m a) i then HPtr (N.to_nat (word_at m (a + 3 + i)))
                else HInt (word_at m (a + 3 + i)))
      (List.seq 0 (nfields m a)).
(** heap.rs:147-150 [obj_with_bytes]. *)
Definition obj_bytes (m : memory) (a : addr) : list N :=
  flat_map (fun i => match m (a + 3 + i) with CBytes bs => bs | _ => [] end) (List.seq 0 (nfields m a)).

(** *** Collection *)

Definition set_mark (m : memory) (a : addr) (b : bool) : memory :=
  match m a with CHdr s _ => upd m a (CHdr s b) | _ => m end.

(** heap.rs:76-78. *)
Definition mark_roots (m : memory) (roots : list addr) : memory :=
  fold_left (fun m r => set_mark m r true) roots m.

(** heap.rs:94-98. *)
Definition mark_children (m : memory) (ptrs : N) (fields : list (nat * N)) : memory :=
  fold_left (fun m f => if is_ptr ptrs (fst f) then set_mark m (N.to_nat (snd f)) true else m) fields m.

(** heap.rs:79-101: one pass from low to high addresses.  [fuel] bounds the number of objects. *)
Fixpoint mark_pass (fuel : nat) (m : memory) (cur len : nat) : memory * list addr :=
  match fuel with
  | O => (m, [])
  | S k =>
    if cur <? len then
      if mark_at m cur then
        let m1 := set_mark m cur false in
        let fs := map (fun i => (i, word_at m1 (cur + 3 + i))) (List.seq 0 (nfields m1 cur)) in
        let m2 := if N.eqb (ptrs_at m1 cur) 0 then m1 else mark_children m1 (ptrs_at m1 cur) fs in
        let '(m3, ret) := mark_pass k m2 (cur + size_at m1 cur) len in
        (m3, cur :: ret)
      else mark_pass k m (cur + size_at m cur) len
    else (m, [])
  end.

(** [copy_within(addr..addr+size, dst)]: memmove. *)
Definition copy_within (m : memory) (src n dst : nat) : memory :=
  fun x => if (dst <=? x) && (x <? dst + n) then m (x - dst + src) else m x.

Fixpoint list_set {A} (l : list A) (i : nat) (v : A) : option (list A) :=
  match l, i with
  | [], _ => None
  | _ :: r, O => Some (v :: r)
  | x :: r, S k => match list_set r k v with Some r' => Some (x :: r') | None => None end
  end.

(** heap.rs:119-121: index into move_dst by byte address / 24, i.e. word address / 3. *)
Definition fix_fields (m : memory) (dst : list addr) (a : addr) (ptrs : N) : nat -> option memory :=
  fix go (n : nat) : option memory :=
    match n with
    | O => Some m
    | S k =>
      match go k with
      | None => None
      | Some m' =>
        if is_ptr ptrs k then
          match nth_error dst (N.to_nat (word_at m' (a + 3 + k)) / 3) with
          | Some d => Some (upd m' (a + 3 + k) (CWord (N.of_nat d)))
          | None => None
          end
        else Some m'
      end
    end.

(** heap.rs:109-125: moves the retained objects (given highest first) to the top of memory. *)
Fixpoint compact (m : memory) (dst : list addr) (bump : nat) (ret : list addr)
  : option (memory * list addr * nat) :=
  match ret with
  | [] => Some (m, dst, bump)
  | a :: r =>
    let size := size_at m a in
    let place := bump - size in
    let m1 := copy_within m a size place in
    match list_set dst (a / 3) place with
    | None => None
    | Some dst1 =>
      match (if N.eqb (ptrs_at m1 place) 0 then Some m1
             else fix_fields m1 dst1 place (ptrs_at m1 place) (nfields m1 place)) with
      | None => None
      | Some m2 => compact m2 dst1 place r
      end
    end
  end.

(** [Vec::resize(n, Addr(0))]. *)
Definition resize (l : list addr) (n : nat) : list addr := firstn n l ++ repeat 0 (n - length l).

Fixpoint map_option {A B} (f : A -> option B) (l : list A) : option (list B) :=
  match l with
  | [] => Some []
  | a :: r => match f a, map_option f r with Some b, Some bs => Some (b :: bs) | _, _ => None end
  end.

(** heap.rs:71-129 [collect_inner]; returns the heap and the updated roots.  [ensure_free] is in bytes.
    [None] is an index out of bounds panic. *)
Definition collect (h : heap) (roots : list addr) (ensure_free : nat) : option (heap * list addr) :=
  let m0 := mark_roots (hmem h) roots in
  let '(m1, ret) := mark_pass (hcap h) m0 (hbump h) (hcap h) in
  let ret_words := list_sum (map (size_at m1) ret) in
  let len := 8 * hcap h in
  let min_cap := Nat.max (Nat.max (8 * ret_words * 4) len) (ensure_free + 8 * ret_words) in
  let '(cap', dst0) :=
    if len <? min_cap then ((min_cap + 7) / 8, resize (hdst h) (min_cap / 24)) else (hcap h, hdst h) in
  match compact m1 dst0 cap' (rev ret) with
  | None => None
  | Some (m2, dst1, bump') =>
    match map_option (fun r => nth_error dst1 (r / 3)) roots with
    | None => None
    | Some roots' => Some (mkHeap cap' m2 bump' dst1, roots')
    end
  end.

(** heap.rs:152-162, in words. *)
Definition allocated (h : heap) : nat := hcap h - hbump h.
Definition free_space (h : heap) : nat := hcap h - allocated h.
