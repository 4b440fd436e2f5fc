(** The unifier of the type checker.  Models ticc/src/compiler/typeck.rs:90-315 and 329-350. *)
From Coq Require Export List Arith Lia Bool.
Export ListNotations.
Set Implicit Arguments.

Notation idx := nat (only parsing).
Notation symbol := nat (only parsing).

(** typeck.rs:90-99 [Ty]. *)
Inductive ty : Type :=
| TyBool | TyInt | TyString
| TyNamed (s : symbol)
| TyApply (a b : idx)
| TyFn (a b : idx)
| TyFolded (a b : idx)
| TyError.

(** typeck.rs:101-106 [TySlot]. *)
Inductive slot : Type := Infer | Next (i : idx) | STy (t : ty).

(** typeck.rs:110-114 [Unifier]; the hash map [pending] is an association list, latest insert first. *)
Record uni : Type := mkUni { slots : list slot; pending : list (nat * slot) }.
Definition new_uni : uni := mkUni [] [].

(** typeck.rs:117-127 [fresh_var], [allocate]. *)
Definition push (u : uni) (s : slot) : uni * idx := (mkUni (slots u ++ [s]) (pending u), length (slots u)).
Definition fresh_var (u : uni) : uni * idx := push u Infer.
Definition allocate (u : uni) (t : ty) : uni * idx := push u (STy t).

Fixpoint assoc {A} (k : nat) (l : list (nat * A)) : option A :=
  match l with [] => None | (k', v) :: r => if Nat.eqb k' k then Some v else assoc k r end.

(** typeck.rs:129-131 [get]; [None] is an index out of bounds. *)
Definition get (u : uni) (i : idx) : option slot :=
  match assoc i (pending u) with Some s => Some s | None => nth_error (slots u) i end.

(** Result of a recursive function: [Loop] when the fuel is used up, [Bad] for a panic. *)
Inductive out (A : Type) : Type := Done (a : A) | Bad | Loop.
Arguments Done {A}. Arguments Bad {A}. Arguments Loop {A}.
Definition obind {A B} (o : out A) (f : A -> out B) : out B :=
  match o with Done a => f a | Bad => Bad | Loop => Loop end.
Notation "x <~ o ;; r" := (obind o (fun x => r)) (at level 61, o at next level, right associativity).

(** typeck.rs:133-139 [final_idx]. *)
Fixpoint final_idx (k : nat) (u : uni) (i : idx) : out idx :=
  match k with
  | O => Loop
  | S k =>
    match get u i with
    | None => Bad
    | Some Infer | Some (STy _) => Done i
    | Some (Next j) => final_idx k u j
    end
  end.

(** typeck.rs:141-148 [normalize]. *)
Definition normalize (k : nat) (u : uni) (i : idx) : out (option ty) :=
  j <~ final_idx k u i ;;
  match get u j with
  | Some (STy t) => Done (Some t)
  | Some (Next _) => Bad
  | Some Infer => Done None
  | None => Bad
  end.

(** typeck.rs:150-172 [occurs]; the or is short-circuiting. *)
Fixpoint occurs (k : nat) (u : uni) (var i : idx) : out bool :=
  match k with
  | O => Loop
  | S k =>
    j <~ final_idx k u i ;;
    if Nat.eqb var j then Done true
    else
      n <~ normalize k u j ;;
      match n with
      | Some (TyApply a b) | Some (TyFn a b) | Some (TyFolded a b) =>
        r <~ occurs k u var a ;;
        if r then Done true else occurs k u var b
      | Some _ => Done false
      | None => Done false
      end
  end.

(** [pending.insert]. *)
Definition bind (u : uni) (i j : idx) : uni := mkUni (slots u) ((i, Next j) :: pending u).

(** typeck.rs:174-209 [unify]: the new state and whether it succeeded. *)
Fixpoint unify (k : nat) (u : uni) (t1 t2 : idx) : out (uni * bool) :=
  match k with
  | O => Loop
  | S k =>
    f1 <~ final_idx k u t1 ;;
    f2 <~ final_idx k u t2 ;;
    if Nat.eqb f1 f2 then Done (u, true)
    else
      n1 <~ normalize k u f1 ;;
      n2 <~ normalize k u f2 ;;
      let both a1 a2 b1 b2 :=
        r <~ unify k u a1 b1 ;;
        if snd r then unify k (fst r) a2 b2 else Done r in
      let right_var :=
        match n2 with
        | None =>
          o <~ occurs k u f2 f1 ;;
          if o then Done (u, false) else Done (bind u f2 f1, true)
        | Some _ => Done (u, false)
        end in
      match n1, n2 with
      | Some TyError, Some _ => Done (u, true)
      | Some _, Some TyError => Done (u, true)
      | Some TyInt, Some TyInt => Done (u, true)
      | Some TyBool, Some TyBool => Done (u, true)
      | Some TyString, Some TyString => Done (u, true)
      | Some (TyNamed a), Some (TyNamed b) => Done (u, Nat.eqb a b)
      | Some (TyApply a1 a2), Some (TyApply b1 b2) => both a1 a2 b1 b2
      | Some (TyFn a1 a2), Some (TyFn b1 b2) => both a1 a2 b1 b2
      | Some (TyFolded a1 a2), Some (TyFolded b1 b2) => both a1 a2 b1 b2
      | Some _, Some _ => Done (u, false)
      | None, _ =>
        o <~ occurs k u f1 f2 ;;
        if o then right_var else Done (bind u f1 f2, true)
      | Some _, None => right_var
      end
  end.

Fixpoint set_slot (l : list slot) (i : nat) (s : slot) : list slot :=
  match l, i with
  | [], _ => []
  | _ :: r, O => s :: r
  | x :: r, S k => x :: set_slot r k s
  end.

(** typeck.rs:211-215 [commit], for a given iteration order [l] of the drained map. *)
Definition commit_in (u : uni) (l : list (nat * slot)) : uni :=
  mkUni (fold_left (fun sl p => set_slot sl (fst p) (snd p)) l (slots u)) [].
Definition commit (u : uni) : uni := commit_in u (pending u).
(** typeck.rs:217-219 [rollback]. *)
Definition rollback (u : uni) : uni := mkUni (slots u) [].

(** typeck.rs:329-346 [TypeChecker::unify]: the new state and whether an error is reported. *)
Definition tc_unify (k : nat) (u : uni) (expected actual : idx) : out (uni * bool) :=
  r <~ unify k u expected actual ;;
  if snd r then Done (commit (fst r), true) else Done (rollback (fst r), false).

(** typeck.rs:221-232 [taint]. *)
Fixpoint taint (k : nat) (u : uni) (i : idx) : out uni :=
  match k with
  | O => Loop
  | S k =>
    match nth_error (slots u) i with
    | None => Bad
    | Some (STy _) => Done u
    | Some (Next j) => taint k u j
    | Some Infer => Done (mkUni (set_slot (slots u) i (STy TyError)) (pending u))
    end
  end.

(** ir.rs:130-140 [Type]. *)
Inductive irty : Type :=
| IrInt | IrBool | IrString
| IrNamed (s : symbol) (args : list irty)
| IrFn (a b : irty)
| IrError | IrInfer
| IrFolded (a b : irty).

(** typeck.rs:234-265 [instantiate]. *)
Fixpoint instantiate (u : uni) (t : irty) (vars : list (symbol * idx)) : uni * idx :=
  match t with
  | IrInt => allocate u TyInt
  | IrBool => allocate u TyBool
  | IrString => allocate u TyString
  | IrNamed s args =>
    let '(u0, n) := match assoc s vars with Some i => (u, i) | None => allocate u (TyNamed s) end in
    (fix go (u : uni) (t : idx) (l : list irty) : uni * idx :=
       match l with
       | [] => (u, t)
       | a :: r => let '(u1, i) := instantiate u a vars in
                   let '(u2, t') := allocate u1 (TyApply t i) in
                   go u2 t' r
       end) u0 n args
  | IrFn a b =>
    let '(u1, i) := instantiate u a vars in
    let '(u2, j) := instantiate u1 b vars in
    allocate u2 (TyFn i j)
  | IrError => allocate u TyError
  | IrInfer => fresh_var u
  | IrFolded a b =>
    let '(u1, i) := instantiate u a vars in
    let '(u2, j) := instantiate u1 b vars in
    allocate u2 (TyFolded i j)
  end.

(** typeck.rs:267-302 [to_ir]. *)
Fixpoint to_ir (k : nat) (u : uni) (i : idx) : out irty :=
  match k with
  | O => Loop
  | S k =>
    n <~ normalize k u i ;;
    match n with
    | None => Done IrInfer
    | Some TyBool => Done IrBool
    | Some TyInt => Done IrInt
    | Some TyString => Done IrString
    | Some (TyNamed s) => Done (IrNamed s [])
    | Some (TyApply a b) =>
      ta <~ to_ir k u a ;;
      match ta with
      | IrNamed s x => tb <~ to_ir k u b ;; Done (IrNamed s (x ++ [tb]))
      | _ => Bad
      end
    | Some (TyFn a b) => ta <~ to_ir k u a ;; tb <~ to_ir k u b ;; Done (IrFn ta tb)
    | Some (TyFolded a b) => ta <~ to_ir k u a ;; tb <~ to_ir k u b ;; Done (IrFolded ta tb)
    | Some TyError => Done IrError
    end
  end.
