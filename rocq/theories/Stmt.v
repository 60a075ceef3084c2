(** * Stmt: model of parser_stmt.go *)
From Coq Require Import List Ascii String ZArith NArith Lia Bool.
From Verif Require Import Base Lexer IR Builder Expr.
Import ListNotations.
Open Scope Z_scope.
Open Scope m_scope.

(** [name, err := l.Identifier(); if err != nil || name == "" { return msg }],
    parser_stmt.go:193,301,482, parser_decls.go:282: any error of the lexer is
    replaced by [msg]. *)
Definition identOr (msg : string) : C string :=
  fun s => match lift Identifier s with
           | Ok EmptyString _ => Err (Msg msg)
           | Ok name s' => Ok name s'
           | Err _ => Err (Msg msg)
           | Fuel => Fuel
           end.

(** [c.builder.NewBr(b)] if the current block has no terminator. *)
Definition brIfOpen (b : nat) : C unit :=
  nil <- termIsNil ;;
  if nil : bool then setTerm (TBr b) else ret tt.

(** [parseReturn], parser_stmt.go:145-177. *)
Definition parseReturn (n : nat) : C unit :=
  ch <- readChar ;;
  if Ascii.eqb ch ";" then setTerm (TRet (VInt 0))
  else if Ascii.eqb ch "(" then
    v <- parseExpression n ;;
    lift Whitespace ;;;
    lift (ExpectChar ")" "expect ')' after 'return' statement") ;;;
    lift Whitespace ;;;
    lift (ExpectChar ";" "expect ';' after 'return' statement") ;;;
    setTerm (TRet v)
  else errorf "expect '(' or ';' after 'return'".

(** Membership of a name in a list of names (a Go map used as a set). *)
Definition mem (x : string) (l : list string) : bool := existsb (String.eqb x) l.

(** parser_stmt.go:219-251: the size after '['; 0 if omitted. *)
Definition autoSize : C Z :=
  lift Whitespace ;;;
  ch2 <- readChar ;;
  if Ascii.eqb ch2 "]" then ret 0
  else
    z <- (if Ascii.eqb ch2 QUOTE then lift Character
          else unread ch2 ;;; lift Number) ;;
    lift Whitespace ;;;
    lift (ExpectChar "]" "expect ']' after array size") ;;;
    ret z.

(** The loop of parser_stmt.go:192-280: the declarations collected so far are
    [decls], their names [seen] (a scalar has size -1, as in the code). *)
Fixpoint autoLoop (n : nat) (seen : list string) (decls : list (string * Z))
  : C (list (string * Z)) :=
  match n with
  | O => out_of_fuel
  | S n' =>
      name <- identOr "expect identifier after 'auto'" ;;
      c <- get ;;
      if mem name seen then
        errorf ("identifier '" ++ name ++ "' already defined in this scope")
      else if mem name (map fst (c_locals c)) then
        errorf ("identifier '" ++ name ++ "' already defined in this scope")
      else
      lift Whitespace ;;;
      ch <- readChar ;;
      if Ascii.eqb ch "[" then
        size <- autoSize ;;
        lift Whitespace ;;;
        ch <- readChar ;;
        if Ascii.eqb ch ";" then ret (decls ++ [(name, size)])
        else if Ascii.eqb ch "," then
          autoLoop n' (name :: seen) (decls ++ [(name, size)])
        else errorf ("unexpected character '" ++ fmt_c ch ++ "', expect ';' or ','")
      else if Ascii.eqb ch ";" then ret (decls ++ [(name, -1)])
      else if Ascii.eqb ch "," then
        autoLoop n' (name :: seen) (decls ++ [(name, -1)])
      else errorf ("unexpected character '" ++ fmt_c ch ++ "', expect ';' or ',' after auto variable")
  end.

(** parser_stmt.go:284-293. *)
Fixpoint declareAutos (decls : list (string * Z)) : C unit :=
  match decls with
  | [] => ret tt
  | (name, size) :: r =>
      (if size =? -1 then DeclareLocal name else DeclareLocalArray name size) ;;;
      declareAutos r
  end.

(** [parseAuto], parser_stmt.go:182-296. *)
Definition parseAuto (n : nat) : C unit :=
  decls <- autoLoop n [] [] ;;
  declareAutos decls.

(** parser_stmt.go:310-320: resolution of one extrn name. *)
Definition externName (name : string) : C unit :=
  c <- get ;;
  match findGlobalByName c name with
  | Some g => modify (bind_global name g)
  | None =>
      match findFuncByName c name with
      | Some _ => errorf "function redeclared as variable"
      | None =>
          if mem name (c_used c) then errorf "function redeclared as variable"
          else
            let g := mkGlob (globalName name) (GWord (CInt 0)) false in
            modify (fun c => bind_global name g (newGlobalDef g c))
      end
  end.

(** [parseExtrn], parser_stmt.go:299-338. *)
Fixpoint parseExtrn (n : nat) : C unit :=
  match n with
  | O => out_of_fuel
  | S n' =>
      name <- identOr "expect identifier after 'extrn'" ;;
      externName name ;;;
      lift Whitespace ;;;
      ch <- readChar ;;
      if Ascii.eqb ch ";" then ret tt
      else if Ascii.eqb ch "," then parseExtrn n'
      else errorf ("unexpected character '" ++ fmt_c ch ++ "', expect ';' or ','")
  end.

(** [parseGoto], parser_stmt.go:481-505. *)
Definition parseGoto : C unit :=
  label <- identOr "expect label name after 'goto'" ;;
  b <- GetOrCreateLabel label ;;
  setTerm (TBr b) ;;;
  id <- nextLabelID ;;
  dead <- NewBlock ("unreachable." ++ dec id) ;;
  SetInsertPoint dead ;;;
  lift Whitespace ;;;
  lift (ExpectChar ";" "expect ';' after 'goto' statement").

(** parser_stmt.go:385-411: reads the characters of "else"; returns what was
    read (reversed) and whether all four matched. *)
Fixpoint readElse (expected : list ascii) (acc : list ascii) : C (list ascii * bool) :=
  match expected with
  | [] => ret (acc, true)
  | e :: es =>
      r <- rc ;;
      match r with
      | inl _ => ret (acc, false)
      | inr ch => if Ascii.eqb ch e then readElse es (ch :: acc)
                  else ret (ch :: acc, false)
      end
  end.

(** Pushing back characters, last read first (parser_stmt.go:419-421 and
    126-128). *)
Fixpoint unreadAll (racc : list ascii) : C unit :=
  match racc with
  | [] => ret tt
  | c :: r => unread c ;;; unreadAll r
  end.

(** parser_stmt.go:385-422 up to the decision: [true] if an else branch
    follows. The character after "else" stays consumed when it is neither a
    letter nor a digit. *)
Definition elseFollows : C bool :=
  '(acc, ok) <- readElse (list_ascii_of_string "else") [] ;;
  if ok : bool then
    r <- rc ;;
    match r with
    | inl _ => ret true
    | inr ch => if IsLetter ch || IsDigit ch then unreadAll (ch :: acc) ;;; ret false
                else ret true
    end
  else unreadAll acc ;;; ret false.

(** parser_stmt.go:544-548: the cases of the switch instruction. *)
Fixpoint switchCases (id : Z) (vals : list Z) : C (list (Z * nat)) :=
  match vals with
  | [] => ret []
  | v :: r =>
      b <- GetOrCreateLabel ("case." ++ dec id ++ "." ++ dec v) ;;
      bs <- switchCases id r ;;
      ret ((v, b) :: bs)
  end.

(** parser_stmt.go:569-592: the constant after case. *)
Definition caseValue : C Z :=
  ch <- readChar ;;
  if Ascii.eqb ch QUOTE then lift Character
  else if IsDigit ch then unread ch ;;; lift Number
  else errorf ("unexpected character '" ++ fmt_c ch ++ "', expect constant after 'case'").

(** An enclosing switch is [Some (id, cases)]: its number and the case list
    accumulated so far; [None] for switchID = -1. The Go code appends through a
    pointer, the model returns the extended list. *)
Definition swctx := option (Z * list Z).

(** [statement] is [parseStatementWithSwitch] (parser_stmt.go:19-73),
    [blockLoop] its loop (32-47), [keyword] is
    [parseKeywordOrExpressionWithSwitch] (75-142), [parseIf] 341-430,
    [parseWhile] 433-478, [parseSwitch] 508-557, [parseCase] 560-617. *)
Fixpoint statement (n : nat) (sw : swctx) {struct n} : C swctx :=
  match n with
  | O => out_of_fuel
  | S n' =>
      lift Whitespace ;;;
      ch <- readChar ;;
      if Ascii.eqb ch "{" then blockLoop n' sw
      else if Ascii.eqb ch ";" then ret sw
      else if IsLetter ch then unread ch ;;; keyword n' sw
      else
        unread ch ;;;
        parseExpression n' ;;;
        lift Whitespace ;;;
        lift (ExpectChar ";" "expect ';' after expression statement") ;;;
        ret sw
  end

with blockLoop (n : nat) (sw : swctx) {struct n} : C swctx :=
  match n with
  | O => out_of_fuel
  | S n' =>
      lift Whitespace ;;;
      ch <- readChar ;;
      if Ascii.eqb ch "}" then ret sw
      else
        unread ch ;;;
        sw <- statement n' sw ;;
        blockLoop n' sw
  end

with keyword (n : nat) (sw : swctx) {struct n} : C swctx :=
  match n with
  | O => out_of_fuel
  | S n' =>
      name <- lift Identifier ;;
      lift Whitespace ;;;
      if String.eqb name "return" then parseReturn n' ;;; ret sw
      else if String.eqb name "auto" then parseAuto n' ;;; ret sw
      else if String.eqb name "extrn" then parseExtrn n' ;;; ret sw
      else if String.eqb name "if" then parseIf n' ;;; ret sw
      else if String.eqb name "while" then parseWhile n' ;;; ret sw
      else if String.eqb name "switch" then parseSwitch n' ;;; ret sw
      else if String.eqb name "case" then parseCase n' sw
      else if String.eqb name "goto" then parseGoto ;;; ret sw
      else
        ch <- readChar ;;
        if Ascii.eqb ch ":" then
          b <- GetOrCreateLabel name ;;
          brIfOpen b ;;;
          SetInsertPoint b ;;;
          statement n' sw
        else
          unread ch ;;;
          unreadAll (rev (list_ascii_of_string name)) ;;;
          parseExpression n' ;;;
          lift Whitespace ;;;
          lift (ExpectChar ";" "expect ';' after expression statement") ;;;
          ret sw
  end

with parseIf (n : nat) {struct n} : C unit :=
  match n with
  | O => out_of_fuel
  | S n' =>
      lift (ExpectChar "(" "expect '(' after 'if'") ;;;
      cond <- parseExpression n' ;;
      lift Whitespace ;;;
      lift (ExpectChar ")" "expect ')' after condition") ;;;
      id <- nextLabelID ;;
      bThen <- NewBlock ("if." ++ dec id ++ ".then") ;;
      bElse <- NewBlock ("if." ++ dec id ++ ".else") ;;
      bEnd <- NewBlock ("if." ++ dec id ++ ".end") ;;
      cmp <- emitR (fun r => ICmp r PNE cond (VInt 0)) ;;
      setTerm (TCondBr cmp bThen bElse) ;;;
      SetInsertPoint bThen ;;;
      statement n' None ;;;
      brIfOpen bEnd ;;;
      SetInsertPoint bElse ;;;
      lift Whitespace ;;;
      els <- elseFollows ;;
      (if els : bool then statement n' None ;;; ret tt else ret tt) ;;;
      brIfOpen bEnd ;;;
      SetInsertPoint bEnd
  end

with parseWhile (n : nat) {struct n} : C unit :=
  match n with
  | O => out_of_fuel
  | S n' =>
      lift (ExpectChar "(" "expect '(' after 'while'") ;;;
      id <- nextLabelID ;;
      bCond <- NewBlock ("while." ++ dec id ++ ".cond") ;;
      bBody <- NewBlock ("while." ++ dec id ++ ".body") ;;
      bEnd <- NewBlock ("while." ++ dec id ++ ".end") ;;
      setTerm (TBr bCond) ;;;
      SetInsertPoint bCond ;;;
      cond <- parseExpression n' ;;
      lift Whitespace ;;;
      lift (ExpectChar ")" "expect ')' after condition") ;;;
      cmp <- emitR (fun r => ICmp r PNE cond (VInt 0)) ;;
      setTerm (TCondBr cmp bBody bEnd) ;;;
      SetInsertPoint bBody ;;;
      statement n' None ;;;
      brIfOpen bCond ;;;
      SetInsertPoint bEnd
  end

with parseSwitch (n : nat) {struct n} : C unit :=
  match n with
  | O => out_of_fuel
  | S n' =>
      id <- nextLabelID ;;
      v <- parseExpression n' ;;
      bStmts <- NewBlock ("switch." ++ dec id ++ ".stmts") ;;
      bCmp <- NewBlock ("switch." ++ dec id ++ ".cmp") ;;
      bEnd <- NewBlock ("switch." ++ dec id ++ ".end") ;;
      setTerm (TBr bCmp) ;;;
      SetInsertPoint bStmts ;;;
      sw <- statement n' (Some (id, [])) ;;
      brIfOpen bEnd ;;;
      SetInsertPoint bCmp ;;;
      match sw with
      | Some (_, (_ :: _) as vals) =>
          cases <- switchCases id vals ;;
          setTerm (TSwitch v bEnd cases)
      | _ => setTerm (TBr bEnd)
      end ;;;
      SetInsertPoint bEnd
  end

with parseCase (n : nat) (sw : swctx) {struct n} : C swctx :=
  match n with
  | O => out_of_fuel
  | S n' =>
      match sw with
      | None => errorf "unexpected 'case' outside of 'switch' statements"
      | Some (id, vals) =>
          v <- caseValue ;;
          lift Whitespace ;;;
          lift (ExpectChar ":" "expect ':' after 'case'") ;;;
          b <- GetOrCreateLabel ("case." ++ dec id ++ "." ++ dec v) ;;
          brIfOpen b ;;;
          SetInsertPoint b ;;;
          statement n' (Some (id, vals ++ [v]))
      end
  end.
