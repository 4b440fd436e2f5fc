(** Specification for C41: the structural recursion a fold stands for.  [tbl] lists, for each constructor of
    the type, the constructor of the folded type and which fields are recursive.  [alg v w r]: the body of
    the fold gives [r] for the value [v] whose recursive fields have been replaced in [w]. *)
From Verif Require Export GenCore.
Set Implicit Arguments.

Definition table := list (name * (name * list bool)).

Inductive cata (tbl : table) (alg : value -> value -> value -> Prop) : value -> value -> Prop :=
| cata_node c c' recs fs fs' r :
    lookup c tbl = Some (c', recs) -> cata_fields tbl alg recs fs fs' -> length fs <= max_fields ->
    alg (VComp c fs) (VComp c' fs') r -> cata tbl alg (VComp c fs) r
with cata_fields (tbl : table) (alg : value -> value -> value -> Prop) : list bool -> list value -> list value -> Prop :=
| cata_nil : cata_fields tbl alg [] [] []
| cata_rec f r recs fs fs' : cata tbl alg f r -> cata_fields tbl alg recs fs fs' ->
    cata_fields tbl alg (true :: recs) (f :: fs) (r :: fs')
| cata_keep f recs fs fs' : cata_fields tbl alg recs fs fs' ->
    cata_fields tbl alg (false :: recs) (f :: fs) (f :: fs').

Scheme cata_ind2 := Minimality for cata Sort Prop with cata_fields_ind2 := Minimality for cata_fields Sort Prop.
Combined Scheme cata_mutind from cata_ind2, cata_fields_ind2.

Definition is_rec (f : option sty) : bool := match f with None => true | Some _ => false end.
(** The table of a type whose constructors are [cs]. *)
Definition fold_table (s : gst) (cs : list ctor) : table :=
  map (fun c => (k_regular c, (k_folded c, match lookup (k_sym c) (g_fields s) with
                                            | Some fs => map is_rec fs
                                            | None => []
                                            end))) cs.
