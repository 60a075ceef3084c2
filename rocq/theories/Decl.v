(** * Decl: model of parser_decls.go *)
From Coq Require Import List Ascii String ZArith NArith Lia Bool.
From Verif Require Import Base Lexer IR Builder Expr Stmt.
Import ListNotations.
Open Scope Z_scope.
Open Scope m_scope.

(** A lexer call whose error is replaced by [msg] (parser_decls.go:137-140,
    206-209,213-216,231-234,238-241). *)
Definition liftOr {A} (msg : string) (m : L A) : C A :=
  fun s => match lift m s with
           | Ok a s' => Ok a s'
           | Err _ => Err (Msg msg)
           | Fuel => Fuel
           end.

(** [parseIvalConst], parser_decls.go:198-244. *)
Definition parseIvalConst : C cword :=
  ch <- readChar ;;
  if IsLetter ch then
    unread ch ;;;
    name <- identOr "unexpected end of file, expect ival" ;;
    errorf "initialization with global references is not supported yet"
  else if Ascii.eqb ch QUOTE then
    z <- liftOr "unexpected end of file, expect ival" Character ;;
    ret (CInt z)
  else if Ascii.eqb ch DQUOTE then
    s <- lift String_ ;;
    g <- CreateStringConstant s ;;
    ret (CAddr g 1 0)
  else if Ascii.eqb ch "-" then
    z <- liftOr "unexpected end of file, expect ival" Number ;;
    ret (CInt (wrap64 (- z)))
  else
    unread ch ;;;
    z <- liftOr "unexpected end of file, expect ival" Number ;;
    ret (CInt z).

(** The loops of parser_decls.go:80-103 and 163-186 (identical). *)
Fixpoint ivalLoop (n : nat) (acc : list cword) : C (list cword) :=
  match n with
  | O => out_of_fuel
  | S n' =>
      lift Whitespace ;;;
      v <- parseIvalConst ;;
      lift Whitespace ;;;
      ch <- readChar ;;
      if Ascii.eqb ch ";" then ret (acc ++ [v])
      else if Ascii.eqb ch "," then ivalLoop n' (acc ++ [v])
      else errorf "expect ';' at end of declaration"
  end.

(** [parseGlobal], parser_decls.go:67-117. *)
Definition parseGlobal (n : nat) (name : string) : C unit :=
  modify (removeGlobalByName name) ;;;
  ch <- readChar ;;
  if Ascii.eqb ch ";" then DeclareGlobal name None
  else
    unread ch ;;;
    vals <- ivalLoop n [] ;;
    match vals with
    | [v] => DeclareGlobal name (Some v)
    | _ => DeclareGlobalWithMultipleValues name vals
    end.

(** [parseVector], parser_decls.go:120-195. *)
Definition parseVector (n : nat) (name : string) : C unit :=
  modify (removeGlobalByName name) ;;;
  lift Whitespace ;;;
  ch <- readChar ;;
  nwords <- (if Ascii.eqb ch "]" then ret 0
             else
               unread ch ;;;
               z <- liftOr "unexpected end of file, expect vector size after '['" Number ;;
               lift Whitespace ;;;
               lift (ExpectChar "]" "expect ']' after vector size") ;;;
               ret z) ;;
  lift Whitespace ;;;
  ch <- readChar ;;
  vals <- (if Ascii.eqb ch ";" then ret []
           else unread ch ;;; ivalLoop n []) ;;
  DeclareGlobalArray name
    (if nwords =? 0 then Z.of_nat (List.length vals) else nwords) vals.

(** [parseArguments], parser_decls.go:274-307. *)
Fixpoint parseArguments (n : nat) (acc : list string) : C (list string) :=
  match n with
  | O => out_of_fuel
  | S n' =>
      lift Whitespace ;;;
      name <- identOr "expect ')' or identifier after function arguments" ;;
      lift Whitespace ;;;
      ch <- readChar ;;
      if Ascii.eqb ch ")" then ret (acc ++ [name])
      else if Ascii.eqb ch "," then parseArguments n' (acc ++ [name])
      else errorf ("unexpected character '" ++ fmt_c ch ++ "', expect ')' or ','")
  end.

(** [parseFunction], parser_decls.go:247-271. *)
Definition parseFunction (n : nat) (name : string) : C unit :=
  ch <- readChar ;;
  params <- (if Ascii.eqb ch ")" then ret []
             else unread ch ;;; parseArguments n []) ;;
  f <- DeclareFunction name params ;;
  StartFunction name f ;;;
  statement n None ;;;
  EndFunction.

(** parser_decls.go:23-51: one declaration after its name. *)
Definition declaration (n : nat) (name : string) : C unit :=
  r <- rc ;;
  match r with
  | inl EOF => errorf "unexpected end of file after declaration"
  | inl e => fail e
  | inr ch =>
      (if Ascii.eqb ch "(" then parseFunction n name
       else if Ascii.eqb ch "[" then parseVector n name
       else unread ch ;;; parseGlobal n name) ;;;
      ClearTopLevelContext
  end.

(** [ParseDeclarations], parser_decls.go:13-64. *)
Fixpoint ParseDeclarations (n : nat) : C unit :=
  match n with
  | O => out_of_fuel
  | S n' =>
      name <- lift Identifier ;;
      if String.eqb name EmptyString then
        r <- rc ;;
        match r with
        | inl EOF => ret tt
        | inl e => fail e
        | inr _ => errorf "expect identifier at top level"
        end
      else
        declaration n' name ;;;
        ParseDeclarations n'
  end.

(** Fuel passed by the entry point; Totality.v proves it is enough. *)
Definition enough (inp : list ascii) : nat := 20 * List.length inp + 20.

(** The module in a compiler state. *)
Definition module_of (c : cstate) : module_ := mkModule (c_mglobals c) (c_mfuncs c).

(** Compiling one source text: NewLexer + NewCompiler + ParseDeclarations
    (driver.go:48-52). [failing] tells
    whether reading the file ends in an I/O error after [inp]. *)
Definition compile_from (inp : list ascii) (failing : bool) : result st unit :=
  ParseDeclarations (enough inp) (mkSt (mkLexer inp failing) NewCompiler).

Definition compile (inp : list ascii) (failing : bool) : result unit module_ :=
  match compile_from inp failing with
  | Ok _ s => Ok (module_of (cs s)) tt
  | Err e => Err e
  | Fuel => Fuel
  end.

(** The same on a Coq string, for examples. *)
Definition compile_string (s : string) : result unit module_ :=
  compile (list_ascii_of_string s) false.
