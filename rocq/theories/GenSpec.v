(** Specification for the code generator: which annotated source programs it is given.  [sscoped D e]: every
    name resolves to a symbol in scope.  [sbinders e]: the symbols bound in [e].  The resolver gives every
    binding its own symbol. *)
From Verif Require Export GenCore Wf.
Set Implicit Arguments.

Fixpoint sscoped (D : list sym) (e : sexpr) : bool :=
  match e with
  | SName x _ => mem x D
  | SApply a b | SBinary a _ b | SPipe a b => sscoped D a && sscoped D b
  | SLet x _ v e => sscoped D v && sscoped (x :: D) e
  | SMatch _ d cases => sscoped D d && forallb (fun c => sscoped (snd (fst c) ++ D) (snd c)) cases
  | SIf c t e => sscoped D c && sscoped D t && sscoped D e
  | SBoolean _ | SNumber _ | SStr _ | SHole _ _ => true
  | SFold _ x b => sscoped (x :: D) b
  | SLam x _ _ b => sscoped (x :: D) b
  | SParen e => sscoped D e
  end.

Fixpoint sbinders (e : sexpr) : list sym :=
  match e with
  | SName _ _ | SBoolean _ | SNumber _ | SStr _ | SHole _ _ => []
  | SApply a b | SBinary a _ b | SPipe a b => sbinders a ++ sbinders b
  | SLet x _ v e => x :: sbinders v ++ sbinders e
  | SMatch _ d cases => sbinders d ++ flat_map (fun c => snd (fst c) ++ sbinders (snd c)) cases
  | SIf c t e => sbinders c ++ sbinders t ++ sbinders e
  | SFold _ x b => x :: sbinders b
  | SLam x _ _ b => x :: sbinders b
  | SParen e => sbinders e
  end.

(** The symbols an item introduces, and those that later items may use as values. *)
Definition item_syms (i : item) : list sym :=
  match i with
  | ITy x _ cases => x :: map fst cases
  | IVal x _ _ _ (inr e) => x :: sbinders e
  | IVal x _ _ _ (inl _) => [x]
  | IImport _ => []
  end.
Definition syms (is : list item) : list sym := flat_map item_syms is.
Definition own_values (i : item) : list sym :=
  match i with
  | ITy _ _ cases => map fst cases
  | IVal x _ _ _ _ => [x]
  | IImport _ => []
  end.
Definition values (is : list item) : list sym := flat_map own_values is.
(** An import makes the values of the imported modules usable, not those that they import. *)
Definition usable (i : item) : list sym :=
  match i with
  | IImport mods => flat_map (fun m => values (snd m)) mods
  | _ => own_values i
  end.
(** Every name in a module resolves to something an earlier item made usable. *)
Fixpoint module_scoped (D : list sym) (is : list item) : bool :=
  match is with
  | [] => true
  | i :: r => match i with IVal _ _ _ _ (inr e) => sscoped D e | _ => true end && module_scoped (usable i ++ D) r
  end.
(** All modules reached by imports. *)
Fixpoint imports (i : item) : list (nat * list item) :=
  match i with
  | IImport mods => flat_map (fun m => m :: flat_map imports (snd m)) mods
  | _ => []
  end.
Definition reached (is : list item) : list (nat * list item) := flat_map imports is.

(** A resolved program: a module has one list of items, symbols are never shared, names resolve. *)
Record resolved (root : list item) : Prop := mkResolved {
  r_same : forall k a b, In (k, a) (reached root) -> In (k, b) (reached root) -> a = b;
  r_nodup : NoDup (syms root) /\ forall k a, In (k, a) (reached root) -> NoDup (syms a);
  r_apart : (forall k a x, In (k, a) (reached root) -> In x (syms root) -> ~ In x (syms a)) /\
            (forall k a j b x, In (k, a) (reached root) -> In (j, b) (reached root) -> k <> j ->
               In x (syms a) -> ~ In x (syms b));
  r_scoped : module_scoped [] root = true /\ forall k a, In (k, a) (reached root) -> module_scoped [] a = true }.
