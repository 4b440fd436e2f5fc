(** The whole optimiser.  Models ticc/src/codegen/opt.rs:14-61.  [None] is a panic of a pass or of [verify], or a
    bound on the recursion of inline.rs or saturate.rs that is too small (OptAllOk.v: some bound is enough). *)
From Verif Require Export Compile OptWalk OptPasses OptInline OptSaturate.
Set Implicit Arguments.

(** The program with its generators of names and type variables. *)
Definition state : Type := program * (nat * nat).
(** A pass that takes no fresh names. *)
Definition plain (f : program -> option program) (s : state) : option state := do p <- f (fst s) ; Some (p, snd s).
Definition fresh (f : nat -> nat -> program -> option state) (s : state) : option state := f (fst (snd s)) (snd (snd s)) (fst s).

Section Optimize.
  (** opt.rs:14-18: the argument [verify] panics or returns.  opt.rs:32-36 [hash_program]: any function. *)
  Variable verify : state -> bool.
  Variable hash : state -> N.

  Definition checked (s : state) : option state := if verify s then Some s else None.
  (** opt.rs:42-55: the list of passes. *)
  Definition passes (fuel : nat) : list (state -> option state) :=
    [fresh (saturate_fuel fuel); fresh (inline_fuel fuel); plain move_match; plain inline_simple; plain reduce_pi;
     plain reduce_apply; fresh (inline_fuel fuel); plain dce; plain inline_simple; plain merge_match].
  (** opt.rs:58-61. *)
  Fixpoint run_passes (l : list (state -> option state)) (s : state) : option state :=
    match l with
    | [] => Some s
    | f :: l => do s1 <- f s ; do s2 <- checked s1 ; run_passes l s2
    end.
  (** opt.rs:38-61 [optimize_iteration]. *)
  Definition optimize_iteration (fuel : nat) (s : state) : option state :=
    do s1 <- checked s ; run_passes (passes fuel) s1.
  (** opt.rs:21-28: the loop. *)
  Fixpoint rounds (fuel n : nat) (h : N) (s : state) : option state :=
    match n with
    | O => Some s
    | S n =>
      do s1 <- optimize_iteration fuel s ;
      if N.eqb (hash s1) h then Some s1 else rounds fuel n (hash s1) s1
    end.
  (** opt.rs:14-30 [optimize]; [opt] is [options.optimize]. *)
  Definition optimize_fuel (fuel : nat) (opt : bool) (s : state) : option state :=
    if opt then rounds fuel 10 (hash s) s else Some s.
End Optimize.
