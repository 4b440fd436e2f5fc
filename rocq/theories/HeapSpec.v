(** Specification of the heap: what it means for a heap to be well formed, for an object to be live, and
    for a pointer to denote a (finite) tree. *)
From Verif Require Import Ir Heap.
Set Implicit Arguments.

(** [tiles m a c l]: the words from [a] up to [c] are exactly the consecutive objects at addresses [l]. *)
Inductive tiles (m : memory) : nat -> nat -> list addr -> Prop :=
| tiles_nil c : tiles m c c []
| tiles_cons a c s b l : m a = CHdr s b -> hdr_size <= s -> tiles m (a + s) c l -> tiles m a c (a :: l).

(** Object [a] holds a pointer to [c]. *)
Definition points_to (m : memory) (a c : addr) : Prop :=
  exists i, i < nfields m a /\ is_ptr (ptrs_at m a) i = true /\ m (a + 3 + i) = CWord (N.of_nat c).

(** Reachability. *)
Inductive reach (m : memory) (roots : list addr) : addr -> Prop :=
| reach_root a : In a roots -> reach m roots a
| reach_step a c : reach m roots a -> points_to m a c -> reach m roots c.

(** An object whose pointer fields lead to older objects. *)
Definition obj_ok (m : memory) (objs : list addr) (a : addr) : Prop :=
  mark_at m a = false /\
  forall i, i < nfields m a -> is_ptr (ptrs_at m a) i = true ->
            exists c, m (a + 3 + i) = CWord (N.of_nat c) /\ In c objs /\ a < c.

Record wf_heap (h : heap) (objs : list addr) : Prop := {
  wf_tiles : tiles (hmem h) (hbump h) (hcap h) objs;
  wf_objs : forall a, In a objs -> obj_ok (hmem h) objs a }.

(** What a value denotes: integers, and objects with tag, bytes and the trees of their fields. *)
Inductive tree : Type := LInt (n : N) | LObj (tag : N) (bytes : list N) (fields : list tree).
Inductive denotes (m : memory) : hval -> tree -> Prop :=
| den_int n : denotes m (HInt n) (LInt n)
| den_ptr a ts : Forall2 (denotes m) (obj_fields m a) ts ->
                 denotes m (HPtr a) (LObj (tag_at m a) (obj_bytes m a) ts).

(** The object at [a'] in [m'] is the object at [a] in [m] with every pointer mapped by [f]. *)
Definition same_obj (f : addr -> addr) (m m' : memory) (a a' : addr) : Prop :=
  size_at m' a' = size_at m a /\ tag_at m' a' = tag_at m a /\ ptrs_at m' a' = ptrs_at m a /\
  (forall i, i < nfields m a ->
     (is_ptr (ptrs_at m a) i = true ->
        forall c, m (a + 3 + i) = CWord (N.of_nat c) -> m' (a' + 3 + i) = CWord (N.of_nat (f c))) /\
     (is_ptr (ptrs_at m a) i = false -> m' (a' + 3 + i) = m (a + 3 + i))).
