(** * Lexer: model of lexer.go *)
From Coq Require Import List Ascii String ZArith NArith Lia Bool.
From Verif Require Import Base.
Import ListNotations.
Open Scope Z_scope.
Open Scope m_scope.

(** [type Lexer], lexer.go:10-14. The push-back buffer and the reader are
    merged into the sequence of characters still to be delivered (LexerBuf.v
    proves that this loses nothing). [l_fail] tells how reading ends after
    those characters: [false] for io.EOF, [true] for another error of the
    underlying reader; either is reported again on every further read.
    The WordSize option is the constant 8 (options.go:29). *)
Record lexer := mkLexer { l_in : list ascii; l_fail : bool }.

Notation L := (M lexer).

(** The error delivered at the end of the characters, lexer.go:33-38. *)
Definition end_err (l : lexer) : goerr := if l_fail l then IOErr else EOF.

(** [c, err := l.ReadChar()], lexer.go:43-53, with the error as a value. *)
Definition tryRead : L (goerr + ascii) :=
  fun l => match l_in l with
           | [] => Ok (inl (end_err l)) l
           | c :: r => Ok (inr c) (mkLexer r (l_fail l))
           end.

(** [UnreadChar], lexer.go:56-58. *)
Definition UnreadChar (c : ascii) : L unit :=
  fun l => Ok tt (mkLexer (c :: l_in l) (l_fail l)).

(** The loop of [Comment], lexer.go:61-84, on the remaining characters;
    [None] when they are exhausted before the closing "*/". A '*' is followed
    by a one-character look-ahead that is pushed back unless it is '/'. *)
Fixpoint comment_loop (s : list ascii) : option (list ascii) :=
  match s with
  | [] => None
  | c :: r =>
      if Ascii.eqb c "*" then
        match r with
        | c2 :: r2 => if Ascii.eqb c2 "/" then Some r2 else comment_loop r
        | [] => None
        end
      else comment_loop r
  end.

(** [Comment], lexer.go:61-84. *)
Definition Comment : L unit :=
  fun l => match comment_loop (l_in l) with
           | Some r => Ok tt (mkLexer r (l_fail l))
           | None => if l_fail l then Err IOErr
                     else Err (Msg "unclosed comment, expect '*/' to close the comment")
           end.

(** The loop of [Whitespace], lexer.go:87-126; [n] bounds the iterations
    (each consumes a character). *)
Fixpoint whitespace_loop (n : nat) : L unit :=
  match n with
  | O => out_of_fuel
  | S n' =>
      r <- tryRead ;;
      match r with
      | inl EOF => ret tt
      | inl e => fail e
      | inr c =>
          if IsSpace c then whitespace_loop n'
          else if Ascii.eqb c "/" then
            r2 <- tryRead ;;
            match r2 with
            | inl EOF => UnreadChar c
            | inl e => fail e
            | inr c2 =>
                if Ascii.eqb c2 "*" then
                  Comment ;;; whitespace_loop n'
                else
                  UnreadChar c2 ;;; UnreadChar c
            end
          else UnreadChar c
      end
  end.

(** [Whitespace], lexer.go:87-126. *)
Definition Whitespace : L unit :=
  fun l => whitespace_loop (S (List.length (l_in l))) l.

(** The loop of [Identifier], lexer.go:134-151: the maximal run of identifier
    characters and what follows it. *)
Fixpoint ident_span (s : list ascii) : list ascii * list ascii :=
  match s with
  | [] => ([], [])
  | c :: r => if IsIdent c then let (a, b) := ident_span r in (c :: a, b)
              else ([], s)
  end.

(** [Identifier], lexer.go:129-152. If the run reaches a failing end the
    error is returned (line 142). *)
Definition Identifier : L string :=
  Whitespace ;;;
  fun l => let (a, b) := ident_span (l_in l) in
           match b with
           | [] => if l_fail l then Err IOErr else Ok (go_string a) (mkLexer b (l_fail l))
           | _ => Ok (go_string a) (mkLexer b (l_fail l))
           end.

(** The digit loop of [Number], lexer.go:170-180: accumulates in int64. *)
Fixpoint number_loop (base num : Z) (s : list ascii) : Z * list ascii :=
  match s with
  | [] => (num, [])
  | c :: r => if IsDigit c
              then number_loop base (wrap64 (num * base + (code c - 48))) r
              else (num, s)
  end.

(** [Number], lexer.go:155-184. *)
Definition Number : L Z :=
  Whitespace ;;;
  fun l => match l_in l with
           | [] => Err (end_err l)
           | c :: _ =>
               let base := if Ascii.eqb c "0" then 8 else 10 in
               let (num, b) := number_loop base 0 (l_in l) in
               match b with
               | [] => if l_fail l then Err IOErr else Ok num (mkLexer b (l_fail l))
               | _ => Ok num (mkLexer b (l_fail l))
               end
           end.

(** [Escape], lexer.go:187-211. *)
Definition Escape : L ascii :=
  r <- tryRead ;;
  match r with
  | inl e => fail e
  | inr c =>
      if Ascii.eqb c "0" || Ascii.eqb c "e" then ret NUL
      else if Ascii.eqb c "*" || Ascii.eqb c QUOTE || Ascii.eqb c DQUOTE then ret c
      else if Ascii.eqb c "(" then ret "{"%char
      else if Ascii.eqb c ")" then ret "}"%char
      else if Ascii.eqb c "t" then ret TAB
      else if Ascii.eqb c "n" then ret LF
      else if Ascii.eqb c "r" then ret CR
      else errorf ("undefined escape character '*" ++ fmt_c c ++ "'")
  end.

(** The loop of [Character], lexer.go:217-243; [i] iterations are left and
    [value] is the accumulated int64. *)
Fixpoint character_loop (i : nat) (value : Z) : L Z :=
  match i with
  | O =>
      r <- tryRead ;;
      match r with
      | inr c => if Ascii.eqb c QUOTE then ret value
                 else errorf "unclosed char literal"
      | inl _ => errorf "unclosed char literal"
      end
  | S i' =>
      r <- tryRead ;;
      match r with
      | inl e => fail e
      | inr c =>
          if Ascii.eqb c QUOTE then ret value
          else
            c' <- (if Ascii.eqb c "*" then Escape else ret c) ;;
            character_loop i' (wrap64 (Z.lor (Z.shiftl value 8) (Z.land (code c') 255)))
      end
  end.

(** [Character], lexer.go:214-244; WordSize = 8. *)
Definition Character : L Z := character_loop 8 0.

(** The loop of [String], lexer.go:247-272; [n] bounds the iterations and
    [acc] is the reversed rune slice. *)
Fixpoint string_loop (n : nat) (acc : list ascii) : L string :=
  match n with
  | O => out_of_fuel
  | S n' =>
      r <- tryRead ;;
      match r with
      | inl EOF => errorf "unterminated string literal"
      | inl e => fail e
      | inr c =>
          if Ascii.eqb c DQUOTE then ret (go_string (rev acc))
          else
            c' <- (if Ascii.eqb c "*" then Escape else ret c) ;;
            string_loop n' (c' :: acc)
      end
  end.

(** [String], lexer.go:247-272. *)
Definition String_ : L string :=
  fun l => string_loop (S (List.length (l_in l))) [] l.

(** [ExpectChar], lexer.go:275-289. *)
Definition ExpectChar (expected : ascii) (msg : string) : L unit :=
  r <- tryRead ;;
  match r with
  | inl EOF => errorf msg
  | inl e => fail e
  | inr c => if Ascii.eqb c expected then ret tt
             else errorf (msg ++ ", got '" ++ fmt_c c ++ "'")
  end.
