(** * IR: the fragment of llir's LLVM IR objects that the compiler builds
    (github.com/llir/llvm, used by irbuilder.go, expressions.go,
    parser_stmt.go, parser_decls.go). Pointer types are not recorded: the
    emitted text is read by clang with opaque pointers. *)
From Coq Require Import List Ascii String ZArith.
From Verif Require Import Base.
Import ListNotations.

(** [value.Value]s that occur as operands.
    - [VInt]: constant.NewInt of type i64 (or i32 index);
    - [VReg]: result of an instruction (llir numbers them when printing; the
      model numbers them when they are created);
    - [VGlob]: *ir.Global, the address of a global (irbuilder.go:461);
    - [VFun]: *ir.Func with its variadic flag and number of fixed parameters
      (irbuilder.go:234-239,270-271), which never change once it is used;
    - [VParam]: fn.Params[0] (irbuilder.go:341,349). *)
Inductive value : Type :=
| VInt (z : Z)
| VReg (r : nat)
| VGlob (name : string)
| VFun (name : string) (variadic : bool) (nparams : nat)
| VParam (name : string).

(** Integer instructions used in expressions.go:256-272,315,330,373,409,467-491. *)
Inductive binop : Type :=
| OAdd | OSub | OMul | OSDiv | OSRem | OAnd | OOr | OShl | OAShr.

(** enum.IPred used in expressions.go and parser_stmt.go. *)
Inductive pred : Type := PEQ | PNE | PSLT | PSLE | PSGT | PSGE.

(** Instructions; [r] is the register defined.
    - [IAlloca r n]: alloca of n words (n = 1 for a plain i64; array length as
      uint64), irbuilder.go:342,350,373,403,423;
    - [IAllocaVA r]: alloca [48 x i8] for the va_list, irbuilder.go:358;
    - [IGepWord r p i]: getelementptr i64, p, i, expressions.go:671;
    - [IGepArr r p sz k]: getelementptr [n x T], p, 0, k with elements of [sz]
      bytes, irbuilder.go:360,427,433,456, expressions.go:846;
    - [ICall r f nfixed variadic args]: call with the function type used at
      the call site, expressions.go:737,739,764;
    - [IVaStart], [IVaArg], [IVaEnd]: irbuilder.go:366,376,385. *)
Inductive inst : Type :=
| IAlloca (r : nat) (words : Z)
| IAllocaVA (r : nat)
| ILoad (r : nat) (p : value)
| IStore (v p : value)
| IBin (r : nat) (op : binop) (a b : value)
| ICmp (r : nat) (p : pred) (a b : value)
| IZExt (r : nat) (a : value)
| IIntToPtr (r : nat) (a : value)
| IPtrToInt (r : nat) (a : value)
| IBitCast (r : nat) (a : value)
| IGepWord (r : nat) (p i : value)
| IGepArr (r : nat) (p : value) (sz : Z) (k : Z)
| ICall (r : nat) (f : value) (nfixed : nat) (variadic : bool) (args : list value)
| IVaStart (p : value)
| IVaArg (r : nat) (p : value)
| IVaEnd (p : value)
| IPhi (r : nat) (inc : list (value * nat)).

(** Terminators; blocks are referred to by their index in the function. *)
Inductive term : Type :=
| TRet (v : value)
| TBr (b : nat)
| TCondBr (c : value) (bt bf : nat)
| TSwitch (v : value) (default : nat) (cases : list (Z * nat)).

(** [ir.Block]: name, instructions, terminator (nil until set; setting it again
    overwrites it, see llir's Block.NewRet etc.). *)
Record block := mkBlock {
  b_name : string;
  b_insts : list inst;
  b_term : option term
}.

(** [ir.Func]. [f_params] are the fixed parameters. [f_void] marks the
    va_start/va_end intrinsics (irbuilder.go:536). A function without blocks is
    an external declaration. *)
Record func := mkFunc {
  f_name : string;
  f_params : list string;
  f_variadic : bool;
  f_void : bool;
  f_blocks : list block
}.

(** Constant words of initialisers: integers, and ptrtoint of
    getelementptr(name, 0, k) with elements of [sz] bytes
    (irbuilder.go:178-181,209-212, parser_decls.go:225-229). *)
Inductive cword : Type :=
| CInt (z : Z)
| CAddr (name : string) (sz k : Z).

(** [constant.Constant] initialisers of globals: one i64, an array of i64 with
    its declared length, a zeroinitializer array of i64, an array of i8. *)
Inductive ginit : Type :=
| GWord (w : cword)
| GWords (len : Z) (ws : list cword)
| GZeros (len : Z)
| GBytes (bs : list ascii).

(** [ir.Global]. [g_private]: private unnamed_addr constant (string constants,
    irbuilder.go:488-490). *)
Record gdef := mkGlob {
  g_name : string;
  g_init : ginit;
  g_private : bool
}.

(** Is [global.ContentType] an array type? (irbuilder.go:455) *)
Definition is_array (g : ginit) : bool :=
  match g with GWord _ => false | _ => true end.

(** [ir.Module]: module.Globals and module.Funcs in order. *)
Record module_ := mkModule {
  m_globals : list gdef;
  m_funcs : list func
}.
