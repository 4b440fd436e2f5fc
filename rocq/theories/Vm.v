(** The linker and the bytecode machine on abstract values.  Models ticc-eval/src/bytecode.rs with heap
    pointers replaced by the values they denote (the heap itself: Heap.v / HeapVm.v). *)
From Verif Require Export Eval Compile.

(** bytecode.rs:389-426 [Op] (linked): labels are code addresses.  Constructor tags stay names
    ([CtorTags::resolve], bytecode.rs:530-539, is injective); string constants stay inline;
    [Construct] with a function tag is [OClosure]. *)
Inductive mop : Type :=
| OPushInt (i : N)
| OPushBool (b : bool)
| OConst (s : bytes)
| OPick (d : nat)
| OSet (d : nat)
| OPopN (n : nat)
| OSwapPop
| OBin (o : op)
| OJump (a : nat)
| OJumpIfFalse (a : nat)
| OReturn (params captures : nat)
| OCall
| OUnpackUpvalues
| OConstruct (c : name) (fields : nat)
| OClosure (a : nat) (fields : nat)
| OBranch (brs : list (name * nat))
| OTrap (m : bytes)
| OStr (i : intrinsic)
| OExit.

(** bytecode.rs:444-456: number of linked opcodes an opcode gives. *)
Definition isize (i : instr) : nat :=
  match i with ILabel _ => 0 | IEnter 0 => 0 | _ => 1 end.

(** bytecode.rs:444-456 [label_addresses]; the last definition of a label wins. *)
Fixpoint label_addrs (addr : nat) (acc : list (label * nat)) (is : list instr) : list (label * nat) :=
  match is with
  | [] => acc
  | ILabel l :: r => label_addrs addr ((l, addr) :: acc) r
  | i :: r => label_addrs (addr + isize i) acc r
  end.

Fixpoint map_opt {A B} (f : A -> option B) (l : list A) : option (list B) :=
  match l with
  | [] => Some []
  | a :: r => match f a, map_opt f r with Some b, Some bs => Some (b :: bs) | _, _ => None end
  end.

(** bytecode.rs:458-521: one opcode. [None]: missing label (HashMap index panic). *)
Definition link1 (la : list (label * nat)) (i : instr) : option (list mop) :=
  match i with
  | IPushInt x => Some [OPushInt x]
  | IPushBool b => Some [OPushBool b]
  | IPushString s => Some [OConst s]
  | IPick d => Some [OPick d]
  | ISet d => Some [OSet d]
  | IPopN n => Some [OPopN n]
  | ISwapPop => Some [OSwapPop]
  | IBin o => Some [OBin o]
  | IJump l => match lookup l la with Some a => Some [OJump a] | None => None end
  | IJumpIfFalse l => match lookup l la with Some a => Some [OJumpIfFalse a] | None => None end
  | IReturn p c => Some [OReturn p c]
  | ICall => Some [OCall]
  | IEnter 0 => Some []
  | IEnter _ => Some [OUnpackUpvalues]
  | IConstruct c n => Some [OConstruct c n]
  | IClosure l n => match lookup l la with Some a => Some [OClosure a n] | None => None end
  | IBranch brs =>
    match map_opt (fun '((c, l), _) => match lookup l la with Some a => Some (c, a) | None => None end) brs with
    | Some t => Some [OBranch t]
    | None => None
    end
  | ITrap m => Some [OTrap m]
  | IStr s => Some [OStr s]
  | ILabel _ => Some []
  | IExit => Some [OExit]
  end.

Fixpoint link_all (la : list (label * nat)) (is : list instr) : option (list mop) :=
  match is with
  | [] => Some []
  | i :: r => match link1 la i, link_all la r with
              | Some a, Some b => Some (a ++ b)
              | _, _ => None
              end
  end.

(** bytecode.rs:443-523 [link]. *)
Definition link (is : list instr) : option (list mop) := link_all (label_addrs 0 [] is) is.

(** What a stack slot denotes: heap.rs [Value] with pointers followed. *)
Inductive mval : Type :=
| MInt (i : N)
| MBool (b : bool)
| MStr (s : bytes)
| MObj (c : name) (fs : list mval)
| MClo (addr : nat) (fs : list mval).

(** The stack, top first (bytecode.rs:29-73). *)
Definition stack := list mval.

(** bytecode.rs:59-61 [Stack::set]. *)
Fixpoint set_nth {A} (n : nat) (v : A) (l : list A) : option (list A) :=
  match l, n with
  | [], _ => None
  | _ :: r, O => Some (v :: r)
  | x :: r, S k => match set_nth k v r with Some r' => Some (x :: r') | None => None end
  end.

(** [n] pops; [None] when the stack is too short ([unwrap] panic). *)
Fixpoint popn {A} (n : nat) (l : list A) : option (list A) :=
  match n, l with
  | O, _ => Some l
  | S k, _ :: r => popn k r
  | S _, [] => None
  end.

(** Takes the [n] topmost values, returned bottom first: bytecode.rs:264-270 stores them in
    descending field order. *)
Definition take_fields (n : nat) (l : stack) : option (list mval * stack) :=
  if n <=? length l then Some (rev (firstn n l), skipn n l) else None.

(** bytecode.rs:171-225: both operands must be ints. *)
Definition vm_bin (o : op) (a b : N) : mval :=
  match o with
  | Add => MInt (wrap (a + b))
  | Subtract => MInt (wrap (a + (W64 - b)))
  | Multiply => MInt (wrap (a * b))
  | Divide => MInt (if N.eqb b 0 then 0 else a / b)
  | Modulo => MInt (if N.eqb b 0 then a else N.modulo a b)
  | Less => MBool (N.ltb a b)
  | LessEq => MBool (N.leb a b)
  | Greater => MBool (N.ltb b a)
  | GreaterEq => MBool (N.leb b a)
  | Equal => MBool (N.eqb a b)
  | NotEqual => MBool (negb (N.eqb a b))
  end%N.

(** bytecode.rs:300-368: string opcodes; the last argument is on top of the stack.  The VM's own index
    check for charAt ([idx < len]) is written out (bytecode.rs:311-315). *)
Definition vm_str (i : intrinsic) (st : stack) : option stack :=
  match i, st with
  | StringLen, MStr s :: r => Some (MInt (str_len s) :: r)
  | StringConcat, MStr s2 :: MStr s1 :: r => Some (MStr (s1 ++ s2) :: r)
  | StringCharAt, MStr s :: MInt idx :: r =>
    Some (MInt (if (idx <? str_len s)%N then nth (N.to_nat idx) s 0%N else 0%N) :: r)
  | StringSubstring, MStr s :: MInt len :: MInt start :: r =>
    Some (MStr (get_to len (get_from start s)) :: r)
  | StringFromChar, MInt c :: r => Some (MStr [(c mod 256)%N] :: r)
  | IntToString, MInt i :: r => Some (MStr (int_to_string i) :: r)
  | _, _ => None
  end.

(** bytecode.rs:280-292: first table entry with the object's constructor. *)
Fixpoint find_target (c : name) (brs : list (name * nat)) : option nat :=
  match brs with
  | [] => None
  | (c', a) :: r => if Nat.eqb c' c then Some a else find_target c r
  end.

Inductive outcome : Type :=
| Next (pc : nat) (st : stack)
| Halt (st : stack)            (* Exit *)
| Trapped (m : bytes)
| Stuck.                       (* a panic, or a wild jump through a non-closure *)

(** bytecode.rs:141-375: one iteration of the [run] loop. *)
Definition step (code : list mop) (pc : nat) (st : stack) : outcome :=
  match nth_error code pc with
  | None => Stuck
  | Some op =>
    match op with
    | OPushInt i => Next (S pc) (MInt i :: st)
    | OPushBool b => Next (S pc) (MBool b :: st)
    | OConst s => Next (S pc) (MStr s :: st)
    | OPick d => match nth_error st d with Some v => Next (S pc) (v :: st) | None => Stuck end
    | OSet d =>
      match st with
      | v :: r => match set_nth d v r with Some r' => Next (S pc) r' | None => Stuck end
      | [] => Stuck
      end
    | OPopN n => match popn n st with Some r => Next (S pc) r | None => Stuck end
    | OSwapPop => match st with t :: _ :: r => Next (S pc) (t :: r) | _ => Stuck end
    | OBin o =>
      match st with
      | MInt b :: MInt a :: r => Next (S pc) (vm_bin o a b :: r)
      | _ => Stuck
      end
    | OJump a => Next a st
    | OJumpIfFalse a =>
      match st with
      | MInt _ :: _ => Stuck                       (* pop_ptr *)
      | MBool false :: r => Next a r
      | _ :: r => Next (S pc) r
      | [] => Stuck
      end
    | OReturn params captures =>
      match st with
      | v :: r =>
        match popn captures r with
        | Some (MInt ret :: _ :: r') =>
          match popn params r' with
          | Some r'' => Next (N.to_nat ret) (v :: r'')
          | None => Stuck
          end
        | _ => Stuck
        end
      | [] => Stuck
      end
    | OCall =>
      match st with
      | MClo a fs :: r => Next a (MInt (N.of_nat (S pc)) :: st)
      | _ => Stuck
      end
    | OUnpackUpvalues =>
      match st with
      | _ :: MClo a fs :: _ => Next (S pc) (rev fs ++ st)
      | _ => Stuck
      end
    | OConstruct c n =>
      match take_fields n st with
      | Some (fs, r) => Next (S pc) (MObj c fs :: r)
      | None => Stuck
      end
    | OClosure a n =>
      match take_fields n st with
      | Some (fs, r) => Next (S pc) (MClo a fs :: r)
      | None => Stuck
      end
    | OBranch brs =>
      match st with
      | MObj c fs :: r =>
        match find_target c brs with
        | Some a => Next a (rev fs ++ r)
        | None => Stuck                            (* panic!("no branch matched") *)
        end
      | _ => Stuck
      end
    | OTrap m => Trapped m
    | OStr i => match vm_str i st with Some r => Next (S pc) r | None => Stuck end
    | OExit => Halt st
    end
  end.

(** bytecode.rs:141-375 [run]; [fuel] bounds the number of opcodes executed. *)
Fixpoint vm_run (code : list mop) (fuel : nat) (pc : nat) (st : stack) : res stack :=
  match fuel with
  | O => OutOfFuel
  | S k =>
    match step code pc st with
    | Next pc' st' => vm_run code k pc' st'
    | Halt st' => Ok st'
    | Trapped m => Trap m
    | Stuck => Panic
    end
  end.

(** What a caller of a runner can see of a result: lib.rs:14-21 [Value<()>]; functions are opaque. *)
Inductive obs : Type :=
| OInt (i : N) | OBool (b : bool) | OString (s : bytes) | OComp (c : name) (fs : list obs) | OFn.

Fixpoint obs_value (v : value) : obs :=
  match v with
  | VInt i => OInt i | VBool b => OBool b | VStr s => OString s
  | VComp c fs => OComp c (map obs_value fs)
  | VFn _ _ _ _ => OFn
  end.

(** bytecode.rs:104-139 [decode_value] ([Tagged::from_vec] panics above nine fields). *)
Fixpoint decode (m : mval) : res obs :=
  match m with
  | MInt i => Ok (OInt i) | MBool b => Ok (OBool b) | MStr s => Ok (OString s)
  | MObj c fs => os <- mapM decode fs ;;
                 if length os <=? max_fields then Ok (OComp c os) else Panic
  | MClo _ _ => Ok OFn
  end.

(** bytecode.rs:75-101 [eval]: run, then pop and decode one value per requested expression (popped
    last-first, reversed at the end). *)
Definition bytecode (fuel : nat) (p : program) (exprs : list expr) : res (list obs) :=
  match compile p exprs with
  | None => Panic
  | Some is =>
    match link is with
    | None => Panic
    | Some code =>
      st <- vm_run code fuel 0 [] ;;
      match take_fields (length exprs) st with
      | Some (vs, _) => os <- mapM decode (rev vs) ;; Ok (rev os)
      | None => Panic
      end
    end
  end.
