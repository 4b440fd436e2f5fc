(** Specification for C48-C50: what the resolver guarantees about the items given to the type checker, and when
    a program is accepted. *)
From Verif Require Export SrcTyping.
Set Implicit Arguments.

(** Definitions of an item and inside its body; no two definitions share a symbol. *)
Definition inner_defs (r : ritem) : defset := match r with RVal _ _ _ (inr e) => expr_defs e | _ => [] end.
Definition all_defs (rs : list ritem) : defset := flat_map (fun r => item_defs r ++ inner_defs r) rs.
Definition rtypes (rs : list ritem) : list sym := flat_map (fun r => match r with RTy s _ _ => [s] | _ => [] end) rs.
Definition rctors (rs : list ritem) : list sym := flat_map (fun r => match r with RTy _ _ cs => map fst cs | _ => [] end) rs.
Definition rvalues (r : ritem) : list sym := match r with RTy _ _ cs => map fst cs | RVal x _ _ _ => [x] end.

(** Names resolve to values in scope, patterns to constructors. *)
Fixpoint rscoped (K B : list sym) (e : rexpr) : bool :=
  match e with
  | RName x => mem x B
  | RApply a b | RBinary a _ b | RPipe a b => rscoped K B a && rscoped K B b
  | RLet x _ v e => rscoped K B v && rscoped K (x :: B) e
  | RMatch d cases =>
    rscoped K B d && forallb (fun c => mem (fst (fst c)) K && rscoped K (snd (fst c) ++ B) (snd c)) cases
  | RIf a b c => rscoped K B a && rscoped K B b && rscoped K B c
  | RBoolean _ | RNumber _ | RStr _ | RHole _ => true
  | RLam _ x b => rscoped K (x :: B) b
  | RParen e => rscoped K B e
  end.
(** Items refer to earlier items: [K] are the constructors and [B] the values (with constructors) so far. *)
Fixpoint ritems_scoped (K B : list sym) (rs : list ritem) : bool :=
  match rs with
  | [] => true
  | r :: rest => match r with RVal _ _ _ (inr e) => rscoped K B e | _ => true end && ritems_scoped (rctors [r] ++ K) (rvalues r ++ B) rest
  end.
(** The names in a type are declared types or the given type variables. *)
Definition names_in (l : list sym) (t : irty) : Prop := forall s, In s (tnames t) -> In s l.

Record resolved_items (rs : list ritem) : Prop := mkResolvedItems {
  ri_distinct : NoDup (map fst (all_defs rs));
  ri_scoped : ritems_scoped [] [] rs = true;
  ri_types : Forall (fun r => match r with
      | RTy _ ps cases => forall c fs t, In (c, fs) cases -> In (Some t) fs -> names_in (ps ++ rtypes rs) t
      | RVal _ (Some (vars, t)) _ _ => names_in (vars ++ rtypes rs) t
      | RVal _ None _ _ => True
      end) rs }.

(** Definitions of a program have a type annotation, built-in functions that of std/intrinsics.tic,
    constructors at most nine fields. *)
Definition ordinary (r : ritem) : Prop :=
  match r with
  | RTy _ _ cases => forall c fs, In (c, fs) cases -> length fs <= max_fields
  | RVal _ None _ _ => False
  | RVal _ (Some (vars, t)) _ (inl b) => builtin_type b vars t
  | RVal _ (Some _) _ (inr _) => True
  end.

(** The type checker accepts all items, one after the other, each seeing the definitions [G] of those before it:
    the annotated items and the types it found for the local names. *)
Fixpoint accepts (k : nat) (G : defset) (rs : list ritem) (out : list (item * list (sym * irty))) : Prop :=
  match rs, out with
  | [], [] => True
  | r :: rs', p :: out' => check_item k G r = Done (Some p) /\ accepts k (item_defs r ++ G) rs' out'
  | _, _ => False
  end.
Definition accepted (k : nat) (rs : list ritem) (out : list (item * list (sym * irty))) : Prop := accepts k [] rs out.

(** Type variables that occur in the type of a local name, other than its own. *)
Definition mentions (defs : defset) (types : list (sym * irty)) (y v : sym) : Prop :=
  match assoc y defs with
  | Some (DValue vars IrInfer) => exists t, assoc y types = Some t /\ In v (tnames t)
  | Some (DValue vars t) => In v (tnames t) /\ ~ In v vars
  | _ => False
  end.
(** The type variables of a local definition do not occur in the types of the local names in scope [L]. *)
Fixpoint keeps (defs : defset) (types : list (sym * irty)) (L : list sym) (e : rexpr) : Prop :=
  match e with
  | RName _ | RBoolean _ | RNumber _ | RStr _ | RHole _ => True
  | RApply a b | RBinary a _ b | RPipe a b => keeps defs types L a /\ keeps defs types L b
  | RLet x ann v e =>
    (forall a y, In a match ann with Some (vars, _) => vars | None => [] end -> In y L -> ~ mentions defs types y a) /\
    keeps defs types L v /\ keeps defs types (x :: L) e
  | RMatch d cases =>
    keeps defs types L d /\
    (fix go (l : list (sym * list sym * rexpr)) : Prop :=
       match l with [] => True | (p, b) :: r => keeps defs types (snd p ++ L) b /\ go r end) cases
  | RIf a b c => keeps defs types L a /\ keeps defs types L b /\ keeps defs types L c
  | RLam _ x b => keeps defs types (x :: L) b
  | RParen e => keeps defs types L e
  end.
Definition item_keeps (r : ritem) (p : item * list (sym * irty)) : Prop :=
  match r with RVal _ _ _ (inr e) => keeps (expr_defs e) (snd p) [] e | _ => True end.
