(** * Syntax: the compiler as parser plus code generator
    The code parses and generates in one pass. Here are the trees it
    recognises and, for each tree, the generation actions it performs, in the
    same order, without the lexer. ParseGen.v proves that every successful run
    of the model of the code performs the actions of some tree; Render.v that
    the text of a tree makes it perform the actions of that tree. *)
From Coq Require Import List Ascii String ZArith NArith Lia Bool.
From Verif Require Import Base Lexer IR Builder Expr Stmt Decl.
Import ListNotations.
Open Scope Z_scope.
Open Scope m_scope.

(** Expressions (expressions.go).
    - [EInt]: number or character constant; [EStr]: string constant;
    - [EVar]: identifier not followed by '('; [ECallee]: identifier followed by '(';
    - [EParen]: parenthesised expression;
    - [EPre], [EPost]: ++ and -- ([OAdd], [OSub]);
    - [EBin]: binary operators; [EAsg]: assignment, plain ([None]) or compound. *)
Inductive expr : Type :=
| EInt (z : Z)
| EStr (s : string)
| EVar (name : string)
| ECallee (name : string)
| EParen (a : expr)
| EIdx (a i : expr)
| ECall (f : expr) (args : exprs)
| EPost (op : binop) (a : expr)
| EPre (op : binop) (a : expr)
| ENot (a : expr)
| ENeg (a : expr)
| EDeref (a : expr)
| EAddr (a : expr)
| EBin (op : cop) (a b : expr)
| ECond (a b c : expr)
| EAsg (op : option cop) (a b : expr)
with exprs : Type :=
| ENil
| ECons (e : expr) (l : exprs).

Scheme expr_mind := Induction for expr Sort Prop
with exprs_mind := Induction for exprs Sort Prop.
Combined Scheme expr_exprs_ind from expr_mind, exprs_mind.

(** Statements (parser_stmt.go). *)
Inductive stmt : Type :=
| SNull
| SExpr (e : expr)
| SBlock (l : stmts)
| SReturn (e : option expr)
| SAuto (decls : list (string * Z))
| SExtrn (names : list string)
| SIf (e : expr) (s : stmt)
| SIfElse (e : expr) (s1 s2 : stmt)
| SWhile (e : expr) (s : stmt)
| SSwitch (e : expr) (s : stmt)
| SCase (z : Z) (s : stmt)
| SGoto (name : string)
| SLabel (name : string) (s : stmt)
with stmts : Type :=
| SNil
| SCons (s : stmt) (l : stmts).

Scheme stmt_mind := Induction for stmt Sort Prop
with stmts_mind := Induction for stmts Sort Prop.
Combined Scheme stmt_stmts_ind from stmt_mind, stmts_mind.

(** Initialisers and definitions (parser_decls.go). [DVec None] is [x[] ...]
    or an explicit size 0. *)
Inductive ival : Type :=
| IvInt (z : Z)
| IvStr (s : string).
Inductive decl : Type :=
| DGlobal (name : string) (vals : list ival)
| DVector (name : string) (size : Z) (vals : list ival)
| DFunction (name : string) (params : list string) (body : stmt).

Section Gen.
(** [chk]: whether the look-ahead of expressions.go:918-929 is taken into
    account: an undeclared name followed by '=' is then an error. Without it
    the generator accepts at least as much. *)
Variable chk : bool.

(** An identifier that is not called, expressions.go:902-941; [q]: the next
    character is '='. *)
Definition genVar (q : bool) (name : string) : C (value * bool) :=
  a <- GetAddress name ;;
  match a with
  | Some addr => ret (addr, true)
  | None =>
      if q then errorf ("undefined identifier '" ++ name ++ "'")
      else
        c <- get ;;
        match findFuncByName c name with
        | Some f =>
            v <- emitR (fun r => IPtrToInt r (fun_value f)) ;;
            ret (v, false)
        | None =>
            o <- GetOrDeclareFunction name ;;
            match o with
            | Some fn =>
                v <- emitR (fun r => IPtrToInt r fn) ;;
                ret (v, false)
            | None => errorf ("undefined identifier '" ++ name ++ "'")
            end
        end
  end.

(** An identifier that is called, expressions.go:884-900. *)
Definition genCallee (name : string) : C (value * bool) :=
  c <- get ;;
  match findFuncByName c name with
  | Some f => ret (fun_value f, false)
  | None =>
      match assoc name (c_globals c) with
      | Some (full, _) => ret (VGlob full, true)
      | None =>
          o <- GetOrDeclareFunction name ;;
          match o with
          | Some fn => ret (fn, false)
          | None => errorf ("cannot declare function '" ++ name ++ "'")
          end
      end
  end.

(** The operator of an increment or decrement as the messages of
    expressions.go:551, 586, 780 and 800 quote it. *)
Definition step_text (op : binop) : string := match op with OAdd => "++" | _ => "--" end.

(** Is the operator '=='? *)
Definition is_eqeq (op : cop) : bool := match op with CCmp PEQ => true | _ => false end.

(** Code for an expression: the value and whether it is an lvalue (then the
    value is its address). The actions of parseExpressionWithLevel
    (expressions.go:22-509), parseUnary (512-625), parsePostfix (628-814),
    parsePrimary (817-946) for this tree. *)
Fixpoint gen (q : bool) (e : expr) : C (value * bool) :=
  match e with
  | EInt z => ret (VInt z, false)
  | EStr s =>
      g <- CreateStringConstant s ;;
      p <- emitR (fun r => IGepArr r (VGlob g) 1 0) ;;
      v <- emitR (fun r => IPtrToInt r p) ;;
      ret (v, false)
  | EVar name => genVar q name
  | ECallee name => genCallee name
  | EParen a =>
      '(v, l) <- gen false a ;; v <- rval v l ;;
      ret (v, false)
  | EIdx a i =>
      '(v, l) <- gen false a ;; v <- rval v l ;;
      ptr <- emitR (fun r => IIntToPtr r v) ;;
      '(w, l) <- gen false i ;; w <- rval w l ;;
      p <- emitR (fun r => IGepWord r ptr w) ;;
      ret (p, true)
  | ECall f args =>
      '(v, l) <- gen false f ;; fn <- rval v l ;;
      vs <- genArgs args ;;
      res <- doCall fn vs ;;
      ret (res, false)
  | EPost op a =>
      '(v, l) <- gen false a ;;
      if l : bool then cur <- incDec op v ;; ret (cur, false)
      else errorf ("expected lvalue for postfix '" ++ step_text op ++ "'")
  | EPre op a =>
      '(v, l) <- gen q a ;;
      if l : bool then incDec op v ;;; ret (v, true)
      else errorf ("expected lvalue after '" ++ step_text op ++ "'")
  | ENot a =>
      '(v, l) <- gen q a ;; v <- rval v l ;;
      w <- cmpz PEQ v (VInt 0) ;;
      ret (w, false)
  | ENeg a =>
      '(v, l) <- gen q a ;; v <- rval v l ;;
      w <- emitR (fun r => IBin r OSub (VInt 0) v) ;;
      ret (w, false)
  | EDeref a =>
      '(v, l) <- gen q a ;; v <- rval v l ;;
      p <- emitR (fun r => IIntToPtr r v) ;;
      ret (p, true)
  | EAddr a =>
      '(v, l) <- gen q a ;;
      if l : bool then w <- emitR (fun r => IPtrToInt r v) ;; ret (w, false)
      else errorf "expected lvalue after '&'"
  | EBin op a b =>
      '(v, l) <- gen (chk && is_eqeq op) a ;; v <- rval v l ;;
      '(w, l) <- gen q b ;; w <- rval w l ;;
      x <- applyCop op v w ;;
      ret (x, false)
  | ECond a b c =>
      '(v, l) <- gen false a ;; v <- rval v l ;;
      id <- nextLabelID ;;
      bThen <- NewBlock ("cond.then." ++ dec id) ;;
      bElse <- NewBlock ("cond.else." ++ dec id) ;;
      bEnd <- NewBlock ("cond.end." ++ dec id) ;;
      cmp <- emitR (fun r => ICmp r PNE v (VInt 0)) ;;
      setTerm (TCondBr cmp bThen bElse) ;;;
      SetInsertPoint bThen ;;;
      '(w, l) <- gen false b ;; vThen <- rval w l ;;
      eThen <- GetInsertBlock ;;
      setTerm (TBr bEnd) ;;;
      SetInsertPoint bElse ;;;
      '(x, l) <- gen q c ;; vElse <- rval x l ;;
      eElse <- GetInsertBlock ;;
      setTerm (TBr bEnd) ;;;
      SetInsertPoint bEnd ;;;
      p <- emitR (fun r => IPhi r [(vThen, eThen); (vElse, eElse)]) ;;
      ret (p, false)
  | EAsg op a b =>
      '(p, l) <- gen chk a ;;
      if l : bool then
        '(w, l) <- gen q b ;; w <- rval w l ;;
        match op with
        | Some o =>
            cur <- emitR (fun r => ILoad r p) ;;
            v <- applyCop o cur w ;;
            emit (IStore v p) ;;;
            ret (v, false)
        | None =>
            emit (IStore w p) ;;;
            ret (w, false)
        end
      else errorf "left operand of assignment must be an lvalue"
  end
with genArgs (l : exprs) : C (list value) :=
  match l with
  | ENil => ret []
  | ECons e r =>
      '(v, lv) <- gen false e ;; v <- rval v lv ;;
      vs <- genArgs r ;;
      ret (v :: vs)
  end.

(** The value of an expression (expressions.go:51-54 and the like). *)
Definition genR (q : bool) (e : expr) : C value :=
  '(v, l) <- gen q e ;; rval v l.

(** The check of parser_stmt.go:196-206 for each name of an auto statement. *)
Fixpoint checkAutos (seen : list string) (decls : list (string * Z)) : C unit :=
  match decls with
  | [] => ret tt
  | (name, _) :: r =>
      c <- get ;;
      if mem name seen then errorf ("identifier '" ++ name ++ "' already defined in this scope")
      else if mem name (map fst (c_locals c)) then
        errorf ("identifier '" ++ name ++ "' already defined in this scope")
      else checkAutos (name :: seen) r
  end.

(** The names of an extrn statement (parser_stmt.go:299-338). *)
Fixpoint genExtrn (names : list string) : C unit :=
  match names with
  | [] => ret tt
  | x :: r => externName x ;;; genExtrn r
  end.

(** Code for a statement (parser_stmt.go:19-617), with the enclosing switch. *)
Fixpoint genS (s : stmt) (sw : swctx) : C swctx :=
  match s with
  | SNull => ret sw
  | SExpr e => genR false e ;;; ret sw
  | SBlock l => genL l sw
  | SReturn None => setTerm (TRet (VInt 0)) ;;; ret sw
  | SReturn (Some e) => v <- genR false e ;; setTerm (TRet v) ;;; ret sw
  | SAuto decls => checkAutos [] decls ;;; declareAutos decls ;;; ret sw
  | SExtrn names => genExtrn names ;;; ret sw
  | SIf e s1 =>
      cond <- genR false e ;;
      id <- nextLabelID ;;
      bThen <- NewBlock ("if." ++ dec id ++ ".then") ;;
      bElse <- NewBlock ("if." ++ dec id ++ ".else") ;;
      bEnd <- NewBlock ("if." ++ dec id ++ ".end") ;;
      cmp <- emitR (fun r => ICmp r PNE cond (VInt 0)) ;;
      setTerm (TCondBr cmp bThen bElse) ;;;
      SetInsertPoint bThen ;;;
      genS s1 None ;;;
      brIfOpen bEnd ;;;
      SetInsertPoint bElse ;;;
      brIfOpen bEnd ;;;
      SetInsertPoint bEnd ;;;
      ret sw
  | SIfElse e s1 s2 =>
      cond <- genR false e ;;
      id <- nextLabelID ;;
      bThen <- NewBlock ("if." ++ dec id ++ ".then") ;;
      bElse <- NewBlock ("if." ++ dec id ++ ".else") ;;
      bEnd <- NewBlock ("if." ++ dec id ++ ".end") ;;
      cmp <- emitR (fun r => ICmp r PNE cond (VInt 0)) ;;
      setTerm (TCondBr cmp bThen bElse) ;;;
      SetInsertPoint bThen ;;;
      genS s1 None ;;;
      brIfOpen bEnd ;;;
      SetInsertPoint bElse ;;;
      genS s2 None ;;;
      brIfOpen bEnd ;;;
      SetInsertPoint bEnd ;;;
      ret sw
  | SWhile e s1 =>
      id <- nextLabelID ;;
      bCond <- NewBlock ("while." ++ dec id ++ ".cond") ;;
      bBody <- NewBlock ("while." ++ dec id ++ ".body") ;;
      bEnd <- NewBlock ("while." ++ dec id ++ ".end") ;;
      setTerm (TBr bCond) ;;;
      SetInsertPoint bCond ;;;
      cond <- genR false e ;;
      cmp <- emitR (fun r => ICmp r PNE cond (VInt 0)) ;;
      setTerm (TCondBr cmp bBody bEnd) ;;;
      SetInsertPoint bBody ;;;
      genS s1 None ;;;
      brIfOpen bCond ;;;
      SetInsertPoint bEnd ;;;
      ret sw
  | SSwitch e s1 =>
      id <- nextLabelID ;;
      v <- genR false e ;;
      bStmts <- NewBlock ("switch." ++ dec id ++ ".stmts") ;;
      bCmp <- NewBlock ("switch." ++ dec id ++ ".cmp") ;;
      bEnd <- NewBlock ("switch." ++ dec id ++ ".end") ;;
      setTerm (TBr bCmp) ;;;
      SetInsertPoint bStmts ;;;
      sw' <- genS s1 (Some (id, [])) ;;
      brIfOpen bEnd ;;;
      SetInsertPoint bCmp ;;;
      match sw' with
      | Some (_, (_ :: _) as vals) =>
          cases <- switchCases id vals ;;
          setTerm (TSwitch v bEnd cases)
      | _ => setTerm (TBr bEnd)
      end ;;;
      SetInsertPoint bEnd ;;;
      ret sw
  | SCase z s1 =>
      match sw with
      | None => errorf "unexpected 'case' outside of 'switch' statements"
      | Some (id, vals) =>
          b <- GetOrCreateLabel ("case." ++ dec id ++ "." ++ dec z) ;;
          brIfOpen b ;;;
          SetInsertPoint b ;;;
          genS s1 (Some (id, vals ++ [z]))
      end
  | SGoto name =>
      b <- GetOrCreateLabel name ;;
      setTerm (TBr b) ;;;
      id <- nextLabelID ;;
      dead <- NewBlock ("unreachable." ++ dec id) ;;
      SetInsertPoint dead ;;;
      ret sw
  | SLabel name s1 =>
      b <- GetOrCreateLabel name ;;
      brIfOpen b ;;;
      SetInsertPoint b ;;;
      genS s1 sw
  end
with genL (l : stmts) (sw : swctx) : C swctx :=
  match l with
  | SNil => ret sw
  | SCons s r => sw <- genS s sw ;; genL r sw
  end.

(** Initialisers (parser_decls.go:198-244). *)
Definition genIval (v : ival) : C cword :=
  match v with
  | IvInt z => ret (CInt z)
  | IvStr s => g <- CreateStringConstant s ;; ret (CAddr g 1 0)
  end.
Fixpoint genIvals (l : list ival) : C (list cword) :=
  match l with
  | [] => ret []
  | v :: r => w <- genIval v ;; ws <- genIvals r ;; ret (w :: ws)
  end.

(** One definition (parser_decls.go:67-195,247-271), and the reset after it
    (parser_decls.go:50). *)
Definition genD (d : decl) : C unit :=
  match d with
  | DGlobal name vals =>
      modify (removeGlobalByName name) ;;;
      ws <- genIvals vals ;;
      match ws with
      | [] => DeclareGlobal name None
      | [w] => DeclareGlobal name (Some w)
      | _ => DeclareGlobalWithMultipleValues name ws
      end
  | DVector name size vals =>
      modify (removeGlobalByName name) ;;;
      ws <- genIvals vals ;;
      DeclareGlobalArray name (if size =? 0 then Z.of_nat (List.length ws) else size) ws
  | DFunction name params body =>
      f <- DeclareFunction name params ;;
      StartFunction name f ;;;
      genS body None ;;;
      EndFunction
  end ;;;
  ClearTopLevelContext.

(** A file (parser_decls.go:13-64). *)
Fixpoint genP (ds : list decl) : C unit :=
  match ds with
  | [] => ret tt
  | d :: r => genD d ;;; genP r
  end.

End Gen.

(** The module generated for a list of definitions. *)
Definition generate (chk : bool) (ds : list decl) : result unit module_ :=
  match genP chk ds (mkSt (mkLexer [] false) NewCompiler) with
  | Ok _ s => Ok (module_of (cs s)) tt
  | Err e => Err e
  | Fuel => Fuel
  end.
