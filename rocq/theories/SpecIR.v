(** * SpecIR: what it means for generated code to be well formed
    Stated on the IR objects only. *)
From Coq Require Import List Ascii String ZArith.
From Verif Require Import Base IR.
Import ListNotations.

(** The register an instruction assigns. *)
Definition assigns (i : inst) : list nat :=
  match i with
  | IAlloca r _ | IAllocaVA r | ILoad r _ | IBin r _ _ _ | ICmp r _ _ _ | IZExt r _
  | IIntToPtr r _ | IPtrToInt r _ | IBitCast r _ | IGepWord r _ _ | IGepArr r _ _ _
  | ICall r _ _ _ _ | IVaArg r _ | IPhi r _ => [r]
  | IStore _ _ | IVaStart _ | IVaEnd _ => []
  end.

(** The operands of an instruction. *)
Definition operands (i : inst) : list value :=
  match i with
  | IAlloca _ _ | IAllocaVA _ => []
  | ILoad _ p => [p]
  | IStore v p => [v; p]
  | IBin _ _ a b | ICmp _ _ a b => [a; b]
  | IZExt _ a | IIntToPtr _ a | IPtrToInt _ a | IBitCast _ a => [a]
  | IGepWord _ p i => [p; i]
  | IGepArr _ p _ _ => [p]
  | ICall _ f _ _ args => f :: args
  | IVaStart p | IVaArg _ p | IVaEnd p => [p]
  | IPhi _ inc => map fst inc
  end.

(** The blocks an instruction names. *)
Definition phi_blocks (i : inst) : list nat :=
  match i with IPhi _ inc => map snd inc | _ => [] end.

(** The operands and the successors of a terminator. *)
Definition term_operands (t : term) : list value :=
  match t with TRet v | TCondBr v _ _ | TSwitch v _ _ => [v] | TBr _ => [] end.
Definition successors (t : term) : list nat :=
  match t with
  | TRet _ => []
  | TBr b => [b]
  | TCondBr _ a b => [a; b]
  | TSwitch _ d cs => d :: map snd cs
  end.

Definition block_terms (b : block) : list term :=
  match b_term b with None => [] | Some t => [t] end.

(** All instructions, operands and block references of a function. *)
Definition all_insts (bs : list block) : list inst := flat_map b_insts bs.
Definition all_assigned (bs : list block) : list nat := flat_map assigns (all_insts bs).
Definition all_operands (bs : list block) : list value :=
  flat_map operands (all_insts bs) ++ flat_map term_operands (flat_map block_terms bs).
Definition all_targets (bs : list block) : list nat :=
  flat_map phi_blocks (all_insts bs) ++ flat_map successors (flat_map block_terms bs).

(** [In] with an operand: what a value refers to must exist. *)
Definition value_defined (gs fs : list string) (f : func) (v : value) : Prop :=
  match v with
  | VInt _ => True
  | VReg r => In r (all_assigned (f_blocks f))
  | VGlob n => In n gs
  | VFun n _ _ => In n fs
  | VParam p => In p (f_params f)
  end.

(** A function is well formed in a module with global symbols [gs] and
    function symbols [fs]: every block it names is one of its blocks, every
    register is assigned by exactly one instruction, every operand exists. *)
Definition wf_function (gs fs : list string) (f : func) : Prop :=
  (forall t, In t (all_targets (f_blocks f)) -> (t < List.length (f_blocks f))%nat) /\
  NoDup (all_assigned (f_blocks f)) /\
  (forall v, In v (all_operands (f_blocks f)) -> value_defined gs fs f v).

Definition wf_module (m : module_) : Prop :=
  forall f, In f (m_funcs m) ->
    wf_function (map g_name (m_globals m)) (map f_name (m_funcs m)) f.
