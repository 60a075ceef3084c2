(** * Files: programs of several source files
    driver.go:296-335 compiles each source file by itself; driver.go:338-361 hands
    the modules to clang, which links them. Clang and the linker are not part of
    the repository: [joined] is what linking makes of the code and the data of
    the modules. Which modules can be linked is described in Ld.v. *)
From Coq Require Import List Ascii String ZArith Bool.
From Verif Require Import Base IR.
Import ListNotations.
Open Scope string_scope.
Open Scope list_scope.

(** A module with other names for its variables: operands, instructions,
    terminators, blocks, functions, initial values (the objects of IR.v). *)
Section Renaming.
Variable r : string -> string.
Definition ren_value (v : value) : value := match v with VGlob n => VGlob (r n) | _ => v end.
Definition ren_inst (i : inst) : inst :=
  match i with
  | IAlloca _ _ | IAllocaVA _ => i
  | ILoad d p => ILoad d (ren_value p)
  | IStore v p => IStore (ren_value v) (ren_value p)
  | IBin d op a b => IBin d op (ren_value a) (ren_value b)
  | ICmp d p a b => ICmp d p (ren_value a) (ren_value b)
  | IZExt d a => IZExt d (ren_value a)
  | IIntToPtr d a => IIntToPtr d (ren_value a)
  | IPtrToInt d a => IPtrToInt d (ren_value a)
  | IBitCast d a => IBitCast d (ren_value a)
  | IGepWord d p i => IGepWord d (ren_value p) (ren_value i)
  | IGepArr d p sz k => IGepArr d (ren_value p) sz k
  | ICall d f nf va args => ICall d (ren_value f) nf va (map ren_value args)
  | IVaStart p => IVaStart (ren_value p)
  | IVaArg d p => IVaArg d (ren_value p)
  | IVaEnd p => IVaEnd (ren_value p)
  | IPhi d inc => IPhi d (map (fun p => (ren_value (fst p), snd p)) inc)
  end.
Definition ren_term (t : term) : term :=
  match t with
  | TRet v => TRet (ren_value v)
  | TBr b => TBr b
  | TCondBr c bt bf => TCondBr (ren_value c) bt bf
  | TSwitch v d cs => TSwitch (ren_value v) d cs
  end.
Definition ren_block (b : block) : block :=
  mkBlock (b_name b) (map ren_inst (b_insts b)) (match b_term b with Some t => Some (ren_term t) | None => None end).
Definition ren_func (f : func) : func :=
  mkFunc (f_name f) (f_params f) (f_variadic f) (f_void f) (map ren_block (f_blocks f)).
Definition ren_cword (w : cword) : cword := match w with CInt z => CInt z | CAddr n sz k => CAddr (r n) sz k end.
Definition ren_ginit (g : ginit) : ginit :=
  match g with GWord w => GWord (ren_cword w) | GWords len ws => GWords len (map ren_cword ws) | _ => g end.
Definition ren_glob (g : gdef) : gdef := mkGlob (r (g_name g)) (ren_ginit (g_init g)) (g_private g).
Definition ren_module (M : module_) : module_ := mkModule (map ren_glob (m_globals M)) (map ren_func (m_funcs M)).
End Renaming.

(** Private variables of file number [i] are its own: they get names that occur in
    no other file (irbuilder.go:488 makes string constants private). *)
Definition own (i : nat) (M : module_) (s : string) : string :=
  if existsb (fun g => g_private g && String.eqb (g_name g) s) (m_globals M) then dec (Z.of_nat i) ++ s else s.
(** The modules [Ms] linked; the first of them is file number [i]. A symbol that is
    not private means the same in all files. *)
Fixpoint joined_from (i : nat) (Ms : list module_) : module_ :=
  match Ms with
  | [] => mkModule [] []
  | M :: r =>
      let M' := ren_module (own i M) M in
      let R := joined_from (S i) r in
      mkModule (m_globals M' ++ m_globals R) (m_funcs M' ++ m_funcs R)
  end.
Definition joined (Ms : list module_) : module_ := joined_from 0 Ms.
