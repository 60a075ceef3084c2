(** * Builder: model of irbuilder.go *)
From Coq Require Import List Ascii String ZArith NArith Lia Bool.
From Verif Require Import Base Lexer IR.
Import ListNotations.
Open Scope Z_scope.
Open Scope m_scope.

(** [type Compiler], irbuilder.go:14-32.
    - [c_mglobals], [c_mfuncs]: module.Globals, module.Funcs;
    - [c_cur]: symbol name of currentFn;
    - [c_blocks]: blocks of currentFn while it is being built (stored in the
      module by EndFunction; nothing reads them from the module before);
    - [c_builder]: index of the current block in [c_blocks] (builder);
    - [c_nreg]: number of registers created in currentFn (llir assigns the
      numbers later);
    - [c_globals]: name -> (symbol, is the content type an array);
    - [c_functions]: name -> *ir.Func as an operand;
    - [c_used]: usedAsFunction.
    The [strings] and [functionTypes] fields are never read and left out. *)
Record cstate := mkC {
  c_mglobals : list gdef;
  c_mfuncs : list func;
  c_cur : option string;
  c_blocks : list block;
  c_builder : nat;
  c_nreg : nat;
  c_locals : list (string * value);
  c_globals : list (string * (string * bool));
  c_functions : list (string * value);
  c_stringID : Z;
  c_labelID : Z;
  c_labels : list (string * nat);
  c_fparams : list (string * list string);
  c_used : list string
}.

(** The state threaded by the parser: lexer and compiler. *)
Record st := mkSt { lx : lexer; cs : cstate }.

Notation C := (M st).

(** Running a lexer method. *)
Definition lift {A} (m : L A) : C A :=
  fun s => match m (lx s) with
           | Ok a l => Ok a (mkSt l (cs s))
           | Err e => Err e
           | Fuel => Fuel
           end.

(** Reading and updating the compiler state. *)
Definition get : C cstate := fun s => Ok (cs s) s.
Definition modify (f : cstate -> cstate) : C unit :=
  fun s => Ok tt (mkSt (lx s) (f (cs s))).

(** Field updates. *)
Definition set_mglobals x c := mkC x (c_mfuncs c) (c_cur c) (c_blocks c) (c_builder c) (c_nreg c) (c_locals c) (c_globals c) (c_functions c) (c_stringID c) (c_labelID c) (c_labels c) (c_fparams c) (c_used c).
Definition set_mfuncs x c := mkC (c_mglobals c) x (c_cur c) (c_blocks c) (c_builder c) (c_nreg c) (c_locals c) (c_globals c) (c_functions c) (c_stringID c) (c_labelID c) (c_labels c) (c_fparams c) (c_used c).
Definition set_cur x c := mkC (c_mglobals c) (c_mfuncs c) x (c_blocks c) (c_builder c) (c_nreg c) (c_locals c) (c_globals c) (c_functions c) (c_stringID c) (c_labelID c) (c_labels c) (c_fparams c) (c_used c).
Definition set_blocks x c := mkC (c_mglobals c) (c_mfuncs c) (c_cur c) x (c_builder c) (c_nreg c) (c_locals c) (c_globals c) (c_functions c) (c_stringID c) (c_labelID c) (c_labels c) (c_fparams c) (c_used c).
Definition set_builder x c := mkC (c_mglobals c) (c_mfuncs c) (c_cur c) (c_blocks c) x (c_nreg c) (c_locals c) (c_globals c) (c_functions c) (c_stringID c) (c_labelID c) (c_labels c) (c_fparams c) (c_used c).
Definition set_nreg x c := mkC (c_mglobals c) (c_mfuncs c) (c_cur c) (c_blocks c) (c_builder c) x (c_locals c) (c_globals c) (c_functions c) (c_stringID c) (c_labelID c) (c_labels c) (c_fparams c) (c_used c).
Definition set_locals x c := mkC (c_mglobals c) (c_mfuncs c) (c_cur c) (c_blocks c) (c_builder c) (c_nreg c) x (c_globals c) (c_functions c) (c_stringID c) (c_labelID c) (c_labels c) (c_fparams c) (c_used c).
Definition set_globals x c := mkC (c_mglobals c) (c_mfuncs c) (c_cur c) (c_blocks c) (c_builder c) (c_nreg c) (c_locals c) x (c_functions c) (c_stringID c) (c_labelID c) (c_labels c) (c_fparams c) (c_used c).
Definition set_functions x c := mkC (c_mglobals c) (c_mfuncs c) (c_cur c) (c_blocks c) (c_builder c) (c_nreg c) (c_locals c) (c_globals c) x (c_stringID c) (c_labelID c) (c_labels c) (c_fparams c) (c_used c).
Definition set_stringID x c := mkC (c_mglobals c) (c_mfuncs c) (c_cur c) (c_blocks c) (c_builder c) (c_nreg c) (c_locals c) (c_globals c) (c_functions c) x (c_labelID c) (c_labels c) (c_fparams c) (c_used c).
Definition set_labelID x c := mkC (c_mglobals c) (c_mfuncs c) (c_cur c) (c_blocks c) (c_builder c) (c_nreg c) (c_locals c) (c_globals c) (c_functions c) (c_stringID c) x (c_labels c) (c_fparams c) (c_used c).
Definition set_labels x c := mkC (c_mglobals c) (c_mfuncs c) (c_cur c) (c_blocks c) (c_builder c) (c_nreg c) (c_locals c) (c_globals c) (c_functions c) (c_stringID c) (c_labelID c) x (c_fparams c) (c_used c).
Definition set_fparams x c := mkC (c_mglobals c) (c_mfuncs c) (c_cur c) (c_blocks c) (c_builder c) (c_nreg c) (c_locals c) (c_globals c) (c_functions c) (c_stringID c) (c_labelID c) (c_labels c) x (c_used c).
Definition set_used x c := mkC (c_mglobals c) (c_mfuncs c) (c_cur c) (c_blocks c) (c_builder c) (c_nreg c) (c_locals c) (c_globals c) (c_functions c) (c_stringID c) (c_labelID c) (c_labels c) (c_fparams c) x.

(** [globalName], irbuilder.go:37-42; GlobalPrefix is "b." (options.go:32). *)
Definition globalName (name : string) : string :=
  if String.eqb name "main" then name else ("b." ++ name)%string.

(** [NewCompiler], irbuilder.go:45-58. *)
Definition NewCompiler : cstate :=
  mkC [] [] None [] 0%nat 0%nat [] [] [] 0 0 [] [] [].

(** First element whose name (by [nm]) is [full] / the list without it:
    the loops of irbuilder.go:61-104. *)
Fixpoint find_named {A} (nm : A -> string) (full : string) (l : list A) : option A :=
  match l with
  | [] => None
  | x :: r => if String.eqb (nm x) full then Some x else find_named nm full r
  end.
Fixpoint remove_named {A} (nm : A -> string) (full : string) (l : list A) : list A :=
  match l with
  | [] => []
  | x :: r => if String.eqb (nm x) full then r else x :: remove_named nm full r
  end.

(** A module function used as an operand: *ir.Func. *)
Definition fun_value (f : func) : value :=
  VFun (f_name f) (f_variadic f) (List.length (f_params f)).

(** [findFuncByName], irbuilder.go:61-69. *)
Definition findFuncByName (c : cstate) (name : string) : option func :=
  find_named f_name (globalName name) (c_mfuncs c).

(** [removeFuncByName], irbuilder.go:72-81. *)
Definition removeFuncByName (name : string) (c : cstate) : cstate :=
  set_mfuncs (remove_named f_name (globalName name) (c_mfuncs c)) c.

(** [findGlobalByName], irbuilder.go:84-92. *)
Definition findGlobalByName (c : cstate) (name : string) : option gdef :=
  find_named g_name (globalName name) (c_mglobals c).

(** [removeGlobalByName], irbuilder.go:95-104. *)
Definition removeGlobalByName (name : string) (c : cstate) : cstate :=
  set_mglobals (remove_named g_name (globalName name) (c_mglobals c)) c.

(** [module.NewGlobalDef]: appends a global definition. *)
Definition newGlobalDef (g : gdef) (c : cstate) : cstate :=
  set_mglobals (c_mglobals c ++ [g]) c.

(** [module.NewFunc]: appends a function. *)
Definition newFunc (f : func) (c : cstate) : cstate :=
  set_mfuncs (c_mfuncs c ++ [f]) c.

(** The entry [c.globals[name] = global]. *)
Definition bind_global (name : string) (g : gdef) (c : cstate) : cstate :=
  set_globals ((name, (g_name g, is_array (g_init g))) :: c_globals c) c.

(** [DeclareGlobal], irbuilder.go:122-132; [None] is the nil initialiser. *)
Definition DeclareGlobal (name : string) (init : option cword) : C unit :=
  let g := mkGlob (globalName name)
                  (GWord (match init with None => CInt 0 | Some w => w end)) false in
  modify (fun c => bind_global name g (newGlobalDef g c)).

(** [DeclareGlobalWithMultipleValues], irbuilder.go:137-148. *)
Definition DeclareGlobalWithMultipleValues (name : string) (vals : list cword) : C unit :=
  let g := mkGlob (globalName name) (GWords (Z.of_nat (List.length vals)) vals) false in
  modify (fun c => bind_global name g (newGlobalDef g c)).

(** The loop of irbuilder.go:198-204: [n] data words, from [init] while it
    lasts, then zeros. *)
Fixpoint vector_words (n : nat) (init : list cword) : list cword :=
  match n with
  | O => []
  | S n' => match init with
            | [] => CInt 0 :: vector_words n' []
            | w :: r => w :: vector_words n' r
            end
  end.

(** [DeclareGlobalArray], irbuilder.go:162-220. Array lengths are uint64.
    [Z.to_nat] of a negative size is 0: the loop of line 198 does not run. *)
Definition DeclareGlobalArray (name : string) (size : Z) (init : list cword) : C unit :=
  let size := if (size =? 0) && (List.length init =? 0)%nat then 1 else size in
  if (List.length init =? 0)%nat && (1 <? size) then
    let dname := (globalName name ++ ".data")%string in
    let d := mkGlob dname (GZeros (u64 size)) false in
    let g := mkGlob (globalName name) (GWords 1 [CAddr dname 8 0]) false in
    modify (fun c => bind_global name g (newGlobalDef g (newGlobalDef d c)))
  else
    let g := mkGlob (globalName name)
               (GWords (u64 (wrap64 (size + 1)))
                       (CAddr (globalName name) 8 1 :: vector_words (Z.to_nat size) init))
               false in
    modify (fun c => bind_global name g (newGlobalDef g c)).

(** [DeclareFunction], irbuilder.go:223-244. *)
Definition DeclareFunction (name : string) (params : list string) : C func :=
  let f := match params with
           | [] => mkFunc (globalName name) [] false false []
           | p :: _ => mkFunc (globalName name) [p] true false []
           end in
  modify (fun c =>
    set_functions ((name, fun_value f) :: c_functions c)
      (newFunc f
        (set_fparams ((name, params) :: c_fparams c)
          (removeFuncByName name c)))) ;;;
  ret f.

(** [GetOrDeclareFunction], irbuilder.go:256-276; [None] is nil. *)
Definition GetOrDeclareFunction (name : string) : C (option value) :=
  c <- get ;;
  match assoc name (c_functions c) with
  | Some fn => ret (Some fn)
  | None =>
      match assoc name (c_globals c) with
      | Some _ => ret None
      | None =>
          let f := mkFunc (globalName name) [] true false [] in
          modify (fun c =>
            set_used (name :: c_used c)
              (set_functions ((name, fun_value f) :: c_functions c)
                (newFunc f (removeFuncByName name c)))) ;;;
          ret (Some (fun_value f))
      end
  end.

(** [ClearTopLevelContext], irbuilder.go:305-311. *)
Definition ClearTopLevelContext : C unit :=
  modify (fun c => set_globals [] (set_functions [] (set_fparams [] c))).

(** Replacing the [n]-th element. *)
Fixpoint upd {A} (n : nat) (f : A -> A) (l : list A) : list A :=
  match l, n with
  | [], _ => []
  | x :: r, O => f x :: r
  | x :: r, S n' => x :: upd n' f r
  end.

(** Appending an instruction to a block (llir's Block.NewXxx). *)
Definition add_inst (i : inst) (b : block) : block :=
  mkBlock (b_name b) (b_insts b ++ [i]) (b_term b).

(** Setting the terminator of a block (llir's Block.NewRet/NewBr/NewCondBr/
    NewSwitch): assigned unconditionally. *)
Definition put_term (t : term) (b : block) : block :=
  mkBlock (b_name b) (b_insts b) (Some t).

(** [c.builder.NewXxx(...)] for an instruction. *)
Definition emit (i : inst) : C unit :=
  modify (fun c => set_blocks (upd (c_builder c) (add_inst i) (c_blocks c)) c).

(** [c.builder.NewRet/NewBr/NewCondBr/NewSwitch]. *)
Definition setTerm (t : term) : C unit :=
  modify (fun c => set_blocks (upd (c_builder c) (put_term t) (c_blocks c)) c).

(** A fresh register. *)
Definition fresh : C nat :=
  fun s => Ok (c_nreg (cs s)) (mkSt (lx s) (set_nreg (S (c_nreg (cs s))) (cs s))).

(** An instruction with a result. *)
Definition emitR (mk : nat -> inst) : C value :=
  r <- fresh ;; emit (mk r) ;;; ret (VReg r).

(** [fn.NewBlock(name)]: appends a block and returns its index; used by
    [NewBlock] (irbuilder.go:498-505, never called with an empty name) and
    [GetOrCreateLabel]. *)
Definition NewBlock (name : string) : C nat :=
  fun s => Ok (List.length (c_blocks (cs s)))
              (mkSt (lx s) (set_blocks (c_blocks (cs s) ++ [mkBlock name [] None]) (cs s))).

(** [SetInsertPoint], irbuilder.go:508-510. *)
Definition SetInsertPoint (b : nat) : C unit := modify (set_builder b).

(** [GetInsertBlock], irbuilder.go:513-515. *)
Definition GetInsertBlock : C nat := c <- get ;; ret (c_builder c).

(** [c.builder.Term == nil]. *)
Definition termIsNil : C bool :=
  c <- get ;;
  match nth_error (c_blocks c) (c_builder c) with
  | Some b => ret (match b_term b with None => true | Some _ => false end)
  | None => ret false
  end.

(** [id := c.labelID; c.labelID++]. *)
Definition nextLabelID : C Z :=
  fun s => Ok (c_labelID (cs s)) (mkSt (lx s) (set_labelID (c_labelID (cs s) + 1) (cs s))).

(** [GetOrCreateLabel], irbuilder.go:518-525. *)
Definition GetOrCreateLabel (name : string) : C nat :=
  c <- get ;;
  match assoc name (c_labels c) with
  | Some b => ret b
  | None =>
      b <- NewBlock name ;;
      modify (fun c => set_labels ((name, b) :: c_labels c) c) ;;;
      ret b
  end.

(** [getOrCreateFunc], irbuilder.go:528-537: makes sure the intrinsic is in
    the module. *)
Definition getOrCreateFunc (fname : string) : C unit :=
  modify (fun c =>
    match find_named f_name fname (c_mfuncs c) with
    | Some _ => c
    | None => newFunc (mkFunc fname [EmptyString] false true []) c
    end).

(** [c.locals[name] = v]. *)
Definition bind_local (name : string) (v : value) : C unit :=
  modify (fun c => set_locals ((name, v) :: c_locals c) c).

(** The loop of irbuilder.go:369-381 over the parameters after the first. *)
Fixpoint va_params (va : value) (ps : list string) : C unit :=
  match ps with
  | [] => ret tt
  | p :: r =>
      a <- emitR (fun r => IAlloca r 1) ;;
      v <- emitR (fun r => IVaArg r va) ;;
      emit (IStore v a) ;;;
      bind_local p a ;;;
      va_params va r
  end.

(** [StartFunction], irbuilder.go:314-387. The name of [fn] is found back in
    c.functions (lines 321-327): DeclareFunction has just put it there and, as
    the table is cleared after each declaration, it is the only entry; the
    model looks up the parameters recorded for the B name [name]. *)
Definition StartFunction (name : string) (f : func) : C unit :=
  modify (fun c =>
    set_cur (Some (f_name f))
      (set_nreg 0%nat
        (set_locals []
          (set_labels []
            (set_builder 0%nat
              (set_blocks [mkBlock "entry" [] None] c)))))) ;;;
  c <- get ;;
  let params := match assoc name (c_fparams c) with Some ps => ps | None => [] end in
  match params with
  | [] => ret tt
  | [p] =>
      a <- emitR (fun r => IAlloca r 1) ;;
      emit (IStore (VParam p) a) ;;;
      bind_local p a
  | p :: ps =>
      a <- emitR (fun r => IAlloca r 1) ;;
      emit (IStore (VParam p) a) ;;;
      bind_local p a ;;;
      vaArr <- emitR IAllocaVA ;;
      va <- emitR (fun r => IGepArr r vaArr 1 0) ;;
      getOrCreateFunc "llvm.va_start" ;;;
      emit (IVaStart va) ;;;
      va_params va ps ;;;
      getOrCreateFunc "llvm.va_end" ;;;
      emit (IVaEnd va)
  end.

(** Storing the finished blocks in the module's function object. *)
Fixpoint store_blocks (full : string) (bs : list block) (l : list func) : list func :=
  match l with
  | [] => []
  | f :: r => if String.eqb (f_name f) full
              then mkFunc (f_name f) (f_params f) (f_variadic f) (f_void f) bs :: r
              else f :: store_blocks full bs r
  end.

(** [EndFunction], irbuilder.go:390-399. *)
Definition EndFunction : C unit :=
  nil <- termIsNil ;;
  (if nil : bool then setTerm (TRet (VInt 0)) else ret tt) ;;;
  modify (fun c =>
    set_cur None (set_locals [] (set_labels [] (set_blocks [] (set_builder 0%nat
      (match c_cur c with
       | Some full => set_mfuncs (store_blocks full (c_blocks c) (c_mfuncs c)) c
       | None => c
       end)))))).

(** [DeclareLocal], irbuilder.go:402-408. *)
Definition DeclareLocal (name : string) : C unit :=
  a <- emitR (fun r => IAlloca r 1) ;;
  emit (IStore (VInt 0) a) ;;;
  bind_local name a.

(** [DeclareLocalArray], irbuilder.go:416-441. *)
Definition DeclareLocalArray (name : string) (size : Z) : C unit :=
  let size := if size =? 0 then 1 else size in
  a <- emitR (fun r => IAlloca r (u64 (wrap64 (size + 1)))) ;;
  firstElem <- emitR (fun r => IGepArr r a 8 1) ;;
  ptr <- emitR (fun r => IPtrToInt r firstElem) ;;
  firstSlot <- emitR (fun r => IGepArr r a 8 0) ;;
  emit (IStore ptr firstSlot) ;;;
  bind_local name firstSlot.

(** [GetAddress], irbuilder.go:445-468. *)
Definition GetAddress (name : string) : C (option value) :=
  c <- get ;;
  match assoc name (c_locals c) with
  | Some v => ret (Some v)
  | None =>
      match assoc name (c_globals c) with
      | Some (full, true) =>
          v <- emitR (fun r => IGepArr r (VGlob full) 8 0) ;;
          ret (Some v)
      | Some (full, false) => ret (Some (VGlob full))
      | None => ret None
      end
  end.

(** [CreateStringConstant], irbuilder.go:471-495: returns the symbol name. *)
Definition CreateStringConstant (str : string) : C string :=
  c <- get ;;
  let name := (".str." ++ dec (c_stringID c))%string in
  let g := mkGlob name (GBytes (list_ascii_of_string str ++ [NUL])) true in
  modify (fun c => set_stringID (c_stringID c + 1) (newGlobalDef g c)) ;;;
  ret name.
