(** * SpecValid: what LLVM demands of a module
    The rules clang checks when it reads the text of a module (LLVM Language
    Reference and verifier), stated on the IR objects: types, phi instructions,
    the entry block, switches, calls, and that registers are assigned before
    they are used. Names and terminators are treated in PropsBlocks.v and
    PropsSym.v, the existence of what is named in SpecIR.v. *)
From Coq Require Import List Ascii String ZArith Permutation.
From Verif Require Import Base IR Syntax SpecIR SpecSem.
Import ListNotations.

(** ** Types: i64, i1 and pointers *)
Inductive ty : Type := TyInt | TyBit | TyPtr.
Definition result_type (i : inst) : ty :=
  match i with
  | IAlloca _ _ | IAllocaVA _ | IIntToPtr _ _ | IBitCast _ _ | IGepWord _ _ _ | IGepArr _ _ _ _ => TyPtr
  | ICmp _ _ _ _ => TyBit
  | _ => TyInt
  end.
(** The type of an operand in a function with blocks [bs]. *)
Definition has_type (bs : list block) (v : value) (t : ty) : Prop :=
  match v with
  | VInt _ | VParam _ => t = TyInt
  | VGlob _ | VFun _ _ _ => t = TyPtr
  | VReg r => exists i, In i (all_insts bs) /\ assigns i = [r] /\ result_type i = t
  end.
(** The operands of an instruction with the types they must have. *)
Definition wanted (i : inst) : list (value * ty) :=
  match i with
  | IAlloca _ _ | IAllocaVA _ => []
  | ILoad _ p => [(p, TyPtr)]
  | IStore v p => [(v, TyInt); (p, TyPtr)]
  | IBin _ _ a b | ICmp _ _ a b => [(a, TyInt); (b, TyInt)]
  | IZExt _ a => [(a, TyBit)]
  | IIntToPtr _ a => [(a, TyInt)]
  | IPtrToInt _ a | IBitCast _ a => [(a, TyPtr)]
  | IGepWord _ p i => [(p, TyPtr); (i, TyInt)]
  | IGepArr _ p _ _ => [(p, TyPtr)]
  | ICall _ f _ _ args => (f, TyPtr) :: map (fun a => (a, TyInt)) args
  | IVaStart p | IVaArg _ p | IVaEnd p => [(p, TyPtr)]
  | IPhi _ inc => map (fun p => (fst p, TyInt)) inc
  end.
Definition term_wanted (t : term) : list (value * ty) :=
  match t with
  | TRet v => [(v, TyInt)]
  | TBr _ => []
  | TCondBr c _ _ => [(c, TyBit)]
  | TSwitch v _ _ => [(v, TyInt)]
  end.
Definition well_typed (bs : list block) : Prop :=
  (forall i v t, In i (all_insts bs) -> In (v, t) (wanted i) -> has_type bs v t) /\
  (forall x v t, In x (flat_map block_terms bs) -> In (v, t) (term_wanted x) -> has_type bs v t).

(** ** Control flow *)
(** The edges from block [j] with content [b] to block [i], one entry for each. *)
Definition edges_from (i : nat) (jb : nat * block) : list nat :=
  flat_map (fun t => map (fun _ => fst jb) (filter (Nat.eqb i) (successors t))) (block_terms (snd jb)).
(** The predecessors of block [i], one entry for each edge. *)
Definition predecessors (bs : list block) (i : nat) : list nat :=
  flat_map (edges_from i) (combine (seq 0 (List.length bs)) bs).
Definition is_phi (i : inst) : bool := match i with IPhi _ _ => true | _ => false end.
(** Phi instructions stand first in their block and name exactly its
    predecessors. *)
Definition phis_first (b : block) : Prop :=
  exists ps rest, b_insts b = ps ++ rest /\ Forall (fun i => is_phi i = true) ps /\ Forall (fun i => is_phi i = false) rest.
Definition phis_ok (bs : list block) : Prop :=
  forall k b, nth_error bs k = Some b -> phis_first b /\
    forall r inc, In (IPhi r inc) (b_insts b) -> Permutation (map snd inc) (predecessors bs k).
(** Nothing branches to the first block. *)
Definition entry_ok (bs : list block) : Prop := predecessors bs 0 = [].

(** ** Assignment before use *)
(** A path through the blocks from the first one: the blocks passed, in order,
    and the block reached. *)
Inductive walk (bs : list block) : list nat -> nat -> Prop :=
| walk_entry : walk bs [] 0
| walk_edge l i b t j : walk bs l i -> nth_error bs i = Some b -> b_term b = Some t -> In j (successors t) ->
    walk bs (l ++ [i]) j.
Definition assigned (is : list inst) : list nat := flat_map assigns is.
(** Register [r] has been assigned on the path [l] or by one of the [is]. *)
Definition available (bs : list block) (l : list nat) (is : list inst) (r : nat) : Prop :=
  (exists j b, In j l /\ nth_error bs j = Some b /\ In r (assigned (b_insts b))) \/ In r (assigned is).
(** On every path a register is assigned before it is used: by an instruction
    or a terminator on the path to it, by a phi instruction on the path to the
    end of the block the value comes from. *)
Definition assigned_first (bs : list block) : Prop :=
  forall l k b, walk bs l k -> nth_error bs k = Some b ->
  (forall n i r, nth_error (b_insts b) n = Some i -> is_phi i = false -> In (VReg r) (operands i) ->
     available bs l (firstn n (b_insts b)) r) /\
  (forall t r, b_term b = Some t -> In (VReg r) (term_operands t) -> available bs l (b_insts b) r) /\
  (forall k' b' x inc r, nth_error bs k' = Some b' -> In (IPhi x inc) (b_insts b') -> In (VReg r, k) inc ->
     available bs l (b_insts b) r).

(** ** Switches and calls *)
Definition switch_ok (t : term) : Prop := match t with TSwitch _ _ cs => NoDup (map fst cs) | _ => True end.
(** A call of a variadic function passes its fixed parameters. (For other
    functions the text of a call does not name the parameters: LLVM takes the
    function type from the arguments.) *)
Definition call_ok (i : inst) : Prop :=
  match i with ICall _ _ nfixed true args => (nfixed <= List.length args)%nat | _ => True end.

(** ** Initial values *)
(** The elements of an array: how many, of how many bytes each. *)
Definition array_of (i : ginit) : option (Z * Z) :=
  match i with
  | GWord _ => None
  | GWords len _ | GZeros len => Some (len, 8%Z)
  | GBytes bs => Some (Z.of_nat (List.length bs), 1%Z)
  end.
Definition init_words (i : ginit) : list cword :=
  match i with GWord w => [w] | GWords _ ws => ws | GZeros _ | GBytes _ => [] end.
(** An address in an initial value is that of an element of an array of the
    module. *)
Definition addresses_ok (gs : list gdef) (g : gdef) : Prop :=
  forall n sz k, In (CAddr n sz k) (init_words (g_init g)) ->
  exists o len, In o gs /\ g_name o = n /\ array_of (g_init o) = Some (len, sz).
(** An initial value has as many elements as its type says. *)
Definition length_ok (g : gdef) : Prop :=
  match g_init g with
  | GWords len ws => len = Z.of_nat (List.length ws)
  | GZeros len => (0 <= len)%Z
  | GWord _ | GBytes _ => True
  end.

(** ** All rules together *)
Record valid_function (f : func) : Prop := {
  vf_names : f_blocks f <> [] -> NoDup (f_params f ++ map b_name (f_blocks f));
  vf_ended : forall b, In b (f_blocks f) -> b_term b <> None;
  vf_types : well_typed (f_blocks f);
  vf_phis : phis_ok (f_blocks f);
  vf_entry : entry_ok (f_blocks f);
  vf_switches : forall t, In t (flat_map block_terms (f_blocks f)) -> switch_ok t;
  vf_calls : forall i, In i (all_insts (f_blocks f)) -> call_ok i;
  vf_assigned : assigned_first (f_blocks f)
}.
Record valid_module (m : module_) : Prop := {
  vm_symbols : NoDup (map g_name (m_globals m) ++ map f_name (m_funcs m));
  vm_wf : wf_module m;
  vm_addresses : forall g, In g (m_globals m) -> addresses_ok (m_globals m) g;
  vm_lengths : forall g, In g (m_globals m) -> length_ok g;
  vm_functions : forall f, In f (m_funcs m) -> valid_function f
}.

(** ** Conditions on the source *)
(** Vectors have a size that is a positive number of the machine. *)
Definition vector_ok (d : decl) : Prop :=
  match d with DVector _ n vs => (0 <= n)%Z /\ (Z.of_nat (List.length vs) < 2 ^ 63)%Z | _ => True end.
(** The cases of every switch are different. *)
Fixpoint distinct_cases (s : stmt) : Prop :=
  match s with
  | SSwitch _ s1 => NoDup (cases s1) /\ distinct_cases s1
  | SBlock l => distinct_casesL l
  | SIf _ s1 | SWhile _ s1 | SCase _ s1 | SLabel _ s1 => distinct_cases s1
  | SIfElse _ s1 s2 => distinct_cases s1 /\ distinct_cases s2
  | SNull | SExpr _ | SReturn _ | SAuto _ | SExtrn _ | SGoto _ => True
  end
with distinct_casesL (l : stmts) : Prop :=
  match l with SNil => True | SCons s r => distinct_cases s /\ distinct_casesL r end.
(** Functions in [D] are called by their name with arguments only. *)
Fixpoint enough_args (D : string -> Prop) (e : expr) : Prop :=
  match e with
  | EInt _ | EStr _ | EVar _ | ECallee _ => True
  | EParen a | ENot a | ENeg a | EDeref a | EAddr a | EPost _ a | EPre _ a => enough_args D a
  | EIdx a b | EBin _ a b | EAsg _ a b => enough_args D a /\ enough_args D b
  | ECond a b c => enough_args D a /\ enough_args D b /\ enough_args D c
  | ECall f args => match f, args with ECallee n, ENil => ~ D n | _, _ => enough_args D f end /\ enough_argss D args
  end
with enough_argss (D : string -> Prop) (l : exprs) : Prop :=
  match l with ENil => True | ECons e r => enough_args D e /\ enough_argss D r end.
Fixpoint args_in (D : string -> Prop) (s : stmt) : Prop :=
  match s with
  | SNull | SAuto _ | SExtrn _ | SGoto _ | SReturn None => True
  | SExpr e | SReturn (Some e) => enough_args D e
  | SBlock l => args_inL D l
  | SIf e s1 | SWhile e s1 | SSwitch e s1 => enough_args D e /\ args_in D s1
  | SIfElse e s1 s2 => enough_args D e /\ args_in D s1 /\ args_in D s2
  | SCase _ s1 | SLabel _ s1 => args_in D s1
  end
with args_inL (D : string -> Prop) (l : stmts) : Prop :=
  match l with SNil => True | SCons s r => args_in D s /\ args_inL D r end.
(** The functions a program defines with parameters. *)
Definition with_params (ds : list decl) (n : string) : Prop := exists ps b, In (DFunction n ps b) ds /\ ps <> [].
