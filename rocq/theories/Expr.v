(** * Expr: model of expressions.go *)
From Coq Require Import List Ascii String ZArith NArith Lia Bool.
From Verif Require Import Base Lexer IR Builder.
Import ListNotations.
Open Scope Z_scope.
Open Scope m_scope.

(** [ch, err := l.ReadChar()] with the error as a value. *)
Definition rc : C (goerr + ascii) := lift tryRead.

(** [ch, err := l.ReadChar(); if err != nil { return err }]. *)
Definition readChar : C ascii :=
  r <- rc ;; match r with inl e => fail e | inr c => ret c end.

(** [l.UnreadChar(c)]. *)
Definition unread (c : ascii) : C unit := lift (UnreadChar c).

(** [if err == nil { l.UnreadChar(ch) }]. *)
Definition unreadOk (r : goerr + ascii) : C unit :=
  match r with inl _ => ret tt | inr c => unread c end.

(** [err == nil && ch == c]. *)
Definition isCh (r : goerr + ascii) (c : ascii) : bool :=
  match r with inl _ => false | inr d => Ascii.eqb d c end.

(** The rune printed by ["%c"] for a read that may have failed (0 then). *)
Definition runeOf (r : goerr + ascii) : ascii :=
  match r with inl _ => NUL | inr d => d end.

(** [if isLvalue { left = c.builder.NewLoad(...) }], e.g. expressions.go:51-54. *)
Definition rval (v : value) (isL : bool) : C value :=
  if isL then emitR (fun r => ILoad r v) else ret v.

(** [NewICmp] followed by [NewZExt], e.g. expressions.go:124-125. *)
Definition cmpz (p : pred) (a b : value) : C value :=
  x <- emitR (fun r => ICmp r p a b) ;;
  emitR (fun r => IZExt r x).

(** Compound assignment operators: the markers of expressions.go:189-239. *)
Inductive cop : Type :=
| CBin (op : binop)
| CCmp (p : pred).

(** The switch of expressions.go:254-293 (the marker for === is never set
    there, it is handled at lines 159-175). *)
Definition applyCop (op : cop) (a b : value) : C value :=
  match op with
  | CBin o => emitR (fun r => IBin r o a b)
  | CCmp p => cmpz p a b
  end.

(** The look-ahead of expressions.go:103-150 after a '=' at level >= 7: [true]
    if the operator is '==' (then both characters are consumed), otherwise
    what was read after the first '=' is pushed back. *)
Definition tryEqEq : C bool :=
  r2 <- rc ;;
  if isCh r2 "=" then
    r3 <- rc ;;
    match r3 with
    | inr c3 =>
        if Ascii.eqb c3 "=" then unread c3 ;;; unread "=" ;;; ret false
        else unread c3 ;;; ret true
    | inl _ => ret true
    end
  else unreadOk r2 ;;; ret false.

(** expressions.go:157-181: [true] if '===' (the third '=' is consumed). *)
Definition tryEqEqEq (r2 : goerr + ascii) : C bool :=
  if isCh r2 "=" then
    r3 <- rc ;;
    if isCh r3 "=" then ret true
    else unreadOk r3 ;;; unread "=" ;;; ret false
  else ret false.

(** expressions.go:188-239: the compound operator after '='; [r2] is the
    character after the '='. *)
Definition compoundOp (r2 : goerr + ascii) : C (option cop) :=
  match r2 with
  | inl _ => ret None
  | inr ch2 =>
      if Ascii.eqb ch2 "+" then ret (Some (CBin OAdd))
      else if Ascii.eqb ch2 "-" then ret (Some (CBin OSub))
      else if Ascii.eqb ch2 "*" then ret (Some (CBin OMul))
      else if Ascii.eqb ch2 "/" then ret (Some (CBin OSDiv))
      else if Ascii.eqb ch2 "%" then ret (Some (CBin OSRem))
      else if Ascii.eqb ch2 "&" then ret (Some (CBin OAnd))
      else if Ascii.eqb ch2 "|" then ret (Some (CBin OOr))
      else if Ascii.eqb ch2 "<" then
        r3 <- rc ;;
        if isCh r3 "<" then ret (Some (CBin OShl))
        else if isCh r3 "=" then ret (Some (CCmp PSLE))
        else unreadOk r3 ;;; ret (Some (CCmp PSLT))
      else if Ascii.eqb ch2 ">" then
        r3 <- rc ;;
        if isCh r3 ">" then ret (Some (CBin OAShr))
        else if isCh r3 "=" then ret (Some (CCmp PSGE))
        else unreadOk r3 ;;; ret (Some (CCmp PSGT))
      else if Ascii.eqb ch2 "!" then
        r3 <- rc ;;
        if isCh r3 "=" then ret (Some (CCmp PNE))
        else unreadOk r3 ;;; unread ch2 ;;; ret None
      else unread ch2 ;;; ret None
  end.

(** expressions.go:722-765: the call once the arguments are known. For a
    direct call of a fully variadic declaration with at least one argument the
    callee is bitcast and called with one fixed parameter; an indirect call
    goes through inttoptr. *)
Definition doCall (fn : value) (args : list value) : C value :=
  match fn with
  | VFun _ variadic nparams =>
      if variadic && (nparams =? 0)%nat && (1 <=? List.length args)%nat then
        casted <- emitR (fun r => IBitCast r fn) ;;
        emitR (fun r => ICall r casted 1 true args)
      else
        emitR (fun r => ICall r fn nparams variadic args)
  | _ =>
      let many := (1 <=? List.length args)%nat in
      p <- emitR (fun r => IIntToPtr r fn) ;;
      emitR (fun r => ICall r p (if many then 1%nat else 0%nat) many args)
  end.

(** Postfix and prefix ++/--: load, add or subtract 1, store back; returns the
    old value (expressions.go:553-556,588-591,782-785,802-805). *)
Definition incDec (op : binop) (p : value) : C value :=
  cur <- emitR (fun r => ILoad r p) ;;
  res <- emitR (fun r => IBin r op cur (VInt 1)) ;;
  emit (IStore res p) ;;;
  ret cur.

(** The identifier case of [parsePrimary] after the name is read,
    expressions.go:881-941. *)
Definition primaryIdent (name : string) : C (value * bool) :=
  lift Whitespace ;;;
  r <- rc ;;
  unreadOk r ;;;
  if isCh r "(" then
    c <- get ;;
    match findFuncByName c name with
    | Some f => ret (fun_value f, false)
    | None =>
        match assoc name (c_globals c) with
        | Some (full, _) => ret (VGlob full, true)
        | None =>
            o <- GetOrDeclareFunction name ;;
            match o with
            | Some fn => ret (fn, false)
            | None => errorf ("cannot declare function '" ++ name ++ "'")
            end
        end
    end
  else
    a <- GetAddress name ;;
    match a with
    | Some addr => ret (addr, true)
    | None =>
        lift Whitespace ;;;
        r2 <- rc ;;
        unreadOk r2 ;;;
        if isCh r2 "=" then errorf ("undefined identifier '" ++ name ++ "'")
        else
          c <- get ;;
          match findFuncByName c name with
          | Some f =>
              v <- emitR (fun r => IPtrToInt r (fun_value f)) ;;
              ret (v, false)
          | None =>
              o <- GetOrDeclareFunction name ;;
              match o with
              | Some fn =>
                  v <- emitR (fun r => IPtrToInt r fn) ;;
                  ret (v, false)
              | None => errorf ("undefined identifier '" ++ name ++ "'")
              end
          end
    end.

(** The mutually recursive parsers; every call spends one unit of fuel [n].
    [exprL] is [parseExpressionWithLevel] (expressions.go:22-509), [exprLoop]
    its loop from line 30, [unary] is [parseUnary] (512-625), [postfix] and
    [postfixLoop] are [parsePostfix] (628-814), [callArgs] the argument loop
    (690-720), [primary] is [parsePrimary] (817-946). *)
Fixpoint exprL (n : nat) (level : nat) {struct n} : C value :=
  match n with
  | O => out_of_fuel
  | S n' =>
      '(lhs, isL) <- unary n' ;;
      exprLoop n' level lhs isL
  end

with exprLoop (n : nat) (level : nat) (lhs : value) (isL : bool) {struct n} : C value :=
  match n with
  | O => out_of_fuel
  | S n' =>
  lift Whitespace ;;;
  r <- rc ;;
  match r with
  | inl EOF => rval lhs isL
  | inl e => fail e
  | inr ch =>
      (* ternary operator, lines 49-97 *)
      if (13 <=? level)%nat && Ascii.eqb ch "?" then
        lhs <- rval lhs isL ;;
        id <- nextLabelID ;;
        bThen <- NewBlock ("cond.then." ++ dec id) ;;
        bElse <- NewBlock ("cond.else." ++ dec id) ;;
        bEnd <- NewBlock ("cond.end." ++ dec id) ;;
        cmp <- emitR (fun r => ICmp r PNE lhs (VInt 0)) ;;
        setTerm (TCondBr cmp bThen bElse) ;;;
        SetInsertPoint bThen ;;;
        vThen <- exprL n' 12 ;;
        eThen <- GetInsertBlock ;;
        setTerm (TBr bEnd) ;;;
        lift Whitespace ;;;
        lift (ExpectChar ":" "expect ':' in ternary operator") ;;;
        SetInsertPoint bElse ;;;
        vElse <- exprL n' 13 ;;
        eElse <- GetInsertBlock ;;
        setTerm (TBr bEnd) ;;;
        SetInsertPoint bEnd ;;;
        emitR (fun r => IPhi r [(vThen, eThen); (vElse, eElse)])
      else
      (* equality, lines 99-150 *)
      eqeq <- (if (7 <=? level)%nat && Ascii.eqb ch "=" then tryEqEq else ret false) ;;
      if eqeq : bool then
        lhs <- rval lhs isL ;;
        rhs <- exprL n' 6 ;;
        v <- cmpz PEQ lhs rhs ;;
        exprLoop n' level v false
      else
      (* assignment, lines 152-301 *)
      if (14 <=? level)%nat && Ascii.eqb ch "=" then
        r2 <- rc ;;
        eee <- tryEqEqEq r2 ;;
        if negb isL then errorf "left operand of assignment must be an lvalue"
        else if eee : bool then
          rhs <- exprL n' 14 ;;
          cur <- emitR (fun r => ILoad r lhs) ;;
          v <- cmpz PEQ cur rhs ;;
          emit (IStore v lhs) ;;;
          ret v
        else
          op <- compoundOp r2 ;;
          rhs <- exprL n' 14 ;;
          match op with
          | Some o =>
              cur <- emitR (fun r => ILoad r lhs) ;;
              v <- applyCop o cur rhs ;;
              emit (IStore v lhs) ;;;
              ret v
          | None =>
              emit (IStore rhs lhs) ;;;
              ret rhs
          end
      else
      (* bitwise or, lines 305-318 *)
      if (10 <=? level)%nat && Ascii.eqb ch "|" then
        lhs <- rval lhs isL ;;
        rhs <- exprL n' 9 ;;
        v <- emitR (fun r => IBin r OOr lhs rhs) ;;
        exprLoop n' level v false
      else
      (* bitwise and, lines 320-333 *)
      if (8 <=? level)%nat && Ascii.eqb ch "&" then
        lhs <- rval lhs isL ;;
        rhs <- exprL n' 7 ;;
        v <- emitR (fun r => IBin r OAnd lhs rhs) ;;
        exprLoop n' level v false
      else
      (* inequality, lines 335-353 *)
      if (7 <=? level)%nat && Ascii.eqb ch "!" then
        r2 <- rc ;;
        if isCh r2 "=" then
          lhs <- rval lhs isL ;;
          rhs <- exprL n' 6 ;;
          v <- cmpz PNE lhs rhs ;;
          exprLoop n' level v false
        else errorf ("unknown operator '!" ++ fmt_c (runeOf r2) ++ "'")
      else
      (* comparisons and shifts, lines 355-438 *)
      if (6 <=? level)%nat && Ascii.eqb ch "<" then
        lhs <- rval lhs isL ;;
        r2 <- rc ;;
        if isCh r2 "<" then
          rhs <- exprL n' 4 ;;
          v <- emitR (fun r => IBin r OShl lhs rhs) ;;
          exprLoop n' level v false
        else if isCh r2 "=" then
          rhs <- exprL n' 5 ;;
          v <- cmpz PSLE lhs rhs ;;
          exprLoop n' level v false
        else
          unreadOk r2 ;;;
          rhs <- exprL n' 5 ;;
          v <- cmpz PSLT lhs rhs ;;
          exprLoop n' level v false
      else
      if (6 <=? level)%nat && Ascii.eqb ch ">" then
        lhs <- rval lhs isL ;;
        r2 <- rc ;;
        if isCh r2 ">" then
          rhs <- exprL n' 4 ;;
          v <- emitR (fun r => IBin r OAShr lhs rhs) ;;
          exprLoop n' level v false
        else if isCh r2 "=" then
          rhs <- exprL n' 5 ;;
          v <- cmpz PSGE lhs rhs ;;
          exprLoop n' level v false
        else
          unreadOk r2 ;;;
          rhs <- exprL n' 5 ;;
          v <- cmpz PSGT lhs rhs ;;
          exprLoop n' level v false
      else
      (* addition and subtraction, lines 440-473; a NUL after the operator is
         indistinguishable from a failed read and is dropped *)
      if (4 <=? level)%nat && (Ascii.eqb ch "+" || Ascii.eqb ch "-") then
        r2 <- rc ;;
        if isCh r2 ch then
          unread ch ;;; unread ch ;;; rval lhs isL
        else
          (if Ascii.eqb (runeOf r2) NUL then ret tt else unreadOk r2) ;;;
          lhs <- rval lhs isL ;;
          rhs <- exprL n' 3 ;;
          v <- emitR (fun r => IBin r (if Ascii.eqb ch "+" then OAdd else OSub) lhs rhs) ;;
          exprLoop n' level v false
      else
      (* multiplication, division, modulo, lines 475-495 *)
      if (3 <=? level)%nat && (Ascii.eqb ch "*" || Ascii.eqb ch "/" || Ascii.eqb ch "%") then
        lhs <- rval lhs isL ;;
        rhs <- exprL n' 2 ;;
        v <- emitR (fun r => IBin r (if Ascii.eqb ch "*" then OMul
                                     else if Ascii.eqb ch "/" then OSDiv
                                     else OSRem) lhs rhs) ;;
        exprLoop n' level v false
      else
        unread ch ;;; rval lhs isL
  end
  end

with unary (n : nat) {struct n} : C (value * bool) :=
  match n with
  | O => out_of_fuel
  | S n' =>
  lift Whitespace ;;;
  r <- rc ;;
  match r with
  | inl EOF => errorf "unexpected end of file, expect expression"
  | inl e => fail e
  | inr ch =>
      if Ascii.eqb ch "!" then
        '(v, isL) <- unary n' ;;
        v <- rval v isL ;;
        w <- cmpz PEQ v (VInt 0) ;;
        ret (w, false)
      else if Ascii.eqb ch "-" then
        r2 <- rc ;;
        if isCh r2 "-" then
          '(v, isL) <- unary n' ;;
          if isL : bool then incDec OSub v ;;; ret (v, true)
          else errorf "expected lvalue after '--'"
        else
          unreadOk r2 ;;;
          '(v, isL) <- unary n' ;;
          v <- rval v isL ;;
          w <- emitR (fun r => IBin r OSub (VInt 0) v) ;;
          ret (w, false)
      else if Ascii.eqb ch "+" then
        r2 <- rc ;;
        if isCh r2 "+" then
          '(v, isL) <- unary n' ;;
          if isL : bool then incDec OAdd v ;;; ret (v, true)
          else errorf "expected lvalue after '++'"
        else errorf ("unexpected character '" ++ fmt_c (runeOf r2) ++ "', expect '+'")
      else if Ascii.eqb ch "*" then
        '(v, isL) <- unary n' ;;
        v <- rval v isL ;;
        p <- emitR (fun r => IIntToPtr r v) ;;
        ret (p, true)
      else if Ascii.eqb ch "&" then
        '(v, isL) <- unary n' ;;
        if isL : bool then
          w <- emitR (fun r => IPtrToInt r v) ;;
          ret (w, false)
        else errorf "expected lvalue after '&'"
      else
        unread ch ;;; postfix n'
  end
  end

with postfix (n : nat) {struct n} : C (value * bool) :=
  match n with
  | O => out_of_fuel
  | S n' =>
      '(v, isL) <- primary n' ;;
      postfixLoop n' v isL
  end

with postfixLoop (n : nat) (v : value) (isL : bool) {struct n} : C (value * bool) :=
  match n with
  | O => out_of_fuel
  | S n' =>
  lift Whitespace ;;;
  r <- rc ;;
  match r with
  | inl EOF => ret (v, isL)
  | inl e => fail e
  | inr ch =>
      if Ascii.eqb ch "[" then
        v <- rval v isL ;;
        ptr <- emitR (fun r => IIntToPtr r v) ;;
        index <- exprL n' 15 ;;
        lift (ExpectChar "]" "expect ']' after array index") ;;;
        p <- emitR (fun r => IGepWord r ptr index) ;;
        postfixLoop n' p true
      else if Ascii.eqb ch "(" then
        fn <- rval v isL ;;
        args <- callArgs n' [] ;;
        res <- doCall fn args ;;
        postfixLoop n' res false
      else if Ascii.eqb ch "+" || Ascii.eqb ch "-" then
        r2 <- rc ;;
        if isCh r2 ch then
          if isL then
            cur <- incDec (if Ascii.eqb ch "+" then OAdd else OSub) v ;;
            postfixLoop n' cur false
          else errorf ("expected lvalue for postfix '" ++ fmt_c ch ++ fmt_c ch ++ "'")
        else
          unreadOk r2 ;;; unread ch ;;; ret (v, isL)
      else
        unread ch ;;; ret (v, isL)
  end
  end

with callArgs (n : nat) (acc : list value) {struct n} : C (list value) :=
  match n with
  | O => out_of_fuel
  | S n' =>
      ch <- readChar ;;
      if Ascii.eqb ch ")" then ret acc
      else
        unread ch ;;;
        a <- exprL n' 15 ;;
        lift Whitespace ;;;
        ch <- readChar ;;
        if Ascii.eqb ch ")" then ret (acc ++ [a])
        else if Ascii.eqb ch "," then callArgs n' (acc ++ [a])
        else errorf ("unexpected character '" ++ fmt_c ch ++ "', expect ')'")
  end

with primary (n : nat) {struct n} : C (value * bool) :=
  match n with
  | O => out_of_fuel
  | S n' =>
  lift Whitespace ;;;
  r <- rc ;;
  match r with
  | inl EOF => errorf "unexpected end of file, expect expression"
  | inl e => fail e
  | inr ch =>
      if Ascii.eqb ch QUOTE then
        z <- lift Character ;; ret (VInt z, false)
      else if Ascii.eqb ch DQUOTE then
        s <- lift String_ ;;
        g <- CreateStringConstant s ;;
        p <- emitR (fun r => IGepArr r (VGlob g) 1 0) ;;
        v <- emitR (fun r => IPtrToInt r p) ;;
        ret (v, false)
      else if Ascii.eqb ch "(" then
        v <- exprL n' 15 ;;
        lift (ExpectChar ")" "expect ')' after expression") ;;;
        ret (v, false)
      else if IsDigit ch then
        unread ch ;;;
        z <- lift Number ;; ret (VInt z, false)
      else if IsLetter ch then
        unread ch ;;;
        name <- lift Identifier ;;
        primaryIdent name
      else errorf ("unexpected character '" ++ fmt_c ch ++ "', expect expression")
  end
  end.

(** [parseExpression], expressions.go:17-19. *)
Definition parseExpression (n : nat) : C value := exprL n 15.
