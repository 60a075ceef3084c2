(** * SpecStatic: which programs are accepted
    The scope rules of the language the compiler implements, on program trees,
    without reference to code generation. *)
From Coq Require Import List Ascii String ZArith Bool.
From Verif Require Import Base IR Expr Syntax.
Import ListNotations.

Definition isin (x : string) (l : list string) : bool := existsb (String.eqb x) l.

(** An expression designates storage: a variable, an element, [*e], [++e], [--e]. *)
Definition lvalue (vars : list string) (e : expr) : bool :=
  match e with
  | EVar x => isin x vars
  | EIdx _ _ | EDeref _ | EPre _ _ => true
  | _ => false
  end.

(** An expression is accepted where the names [vars] are variables. [q]: the
    text continues with '=' after the expression. A name that is not a variable
    and stands directly before '=' is an error; elsewhere it denotes a
    function. *)
Fixpoint okE (vars : list string) (q : bool) (e : expr) : bool :=
  match e with
  | EInt _ | EStr _ => true
  | EVar x => isin x vars || negb q
  | ECallee _ => false
  | EParen a => okE vars false a
  | EIdx a i => okE vars false a && okE vars false i
  | ECall f args => match f with ECallee _ => true | _ => okE vars false f end && okArgs vars args
  | EPost _ a => okE vars false a && lvalue vars a
  | EPre _ a | EAddr a => okE vars q a && lvalue vars a
  | ENot a | ENeg a | EDeref a => okE vars q a
  | EBin op a b => okE vars (match op with CCmp PEQ => true | _ => false end) a && okE vars q b
  | ECond a b c => okE vars false a && okE vars false b && okE vars q c
  | EAsg _ a b => okE vars true a && lvalue vars a && okE vars q b
  end
with okArgs (vars : list string) (l : exprs) : bool :=
  match l with ENil => true | ECons e r => okE vars false e && okArgs vars r end.

(** Names an expression makes functions of the module: names that are used but
    are not variables, and called names that are not extrn variables. *)
Fixpoint usedF (vars exts : list string) (e : expr) : list string :=
  match e with
  | EInt _ | EStr _ => []
  | EVar x => if isin x vars then [] else [x]
  | ECallee x => if isin x exts then [] else [x]
  | EParen a | EPost _ a | EPre _ a | EAddr a | ENot a | ENeg a | EDeref a => usedF vars exts a
  | EIdx a b | EBin _ a b | EAsg _ a b => usedF vars exts a ++ usedF vars exts b
  | ECall f args => usedF vars exts f ++ usedArgs vars exts args
  | ECond a b c => usedF vars exts a ++ usedF vars exts b ++ usedF vars exts c
  end
with usedArgs (vars exts : list string) (l : exprs) : list string :=
  match l with ENil => [] | ECons e r => usedF vars exts e ++ usedArgs vars exts r end.

(** What is declared at a point of a file: parameters and autos of the current
    function, its extrns, functions of the file (defined or called), variables
    of the file. *)
Record senv := mkEnv { s_locs : list string; s_exts : list string; s_funs : list string; s_globs : list string }.
Definition vars_of (v : senv) : list string := s_locs v ++ s_exts v.

(** Evaluating an expression statement, condition, ... *)
Definition chkE (e : expr) (v : senv) : option senv :=
  if okE (vars_of v) false e
  then Some (mkEnv (s_locs v) (s_exts v) (usedF (vars_of v) (s_exts v) e ++ s_funs v) (s_globs v))
  else None.

(** One name of an auto statement. *)
Fixpoint chkAuto (names : list string) (v : senv) : option senv :=
  match names with
  | [] => Some v
  | x :: r => if isin x (s_locs v) then None
              else chkAuto r (mkEnv (x :: s_locs v) (s_exts v) (s_funs v) (s_globs v))
  end.
(** extrn: a variable of the file, or a new one, but not a function of the file. *)
Fixpoint chkExtrn (names : list string) (v : senv) : option senv :=
  match names with
  | [] => Some v
  | x :: r =>
      if isin x (s_globs v) then chkExtrn r (mkEnv (s_locs v) (x :: s_exts v) (s_funs v) (s_globs v))
      else if isin x (s_funs v) then None
      else chkExtrn r (mkEnv (s_locs v) (x :: s_exts v) (s_funs v) (x :: s_globs v))
  end.

Definition opt_bind {A B} (o : option A) (f : A -> option B) : option B :=
  match o with Some a => f a | None => None end.

(** A statement; [sw]: it is in the body of a switch (through blocks, labels
    and cases only). *)
Fixpoint chkS (sw : bool) (s : stmt) (v : senv) : option senv :=
  match s with
  | SNull | SReturn None | SGoto _ => Some v
  | SExpr e | SReturn (Some e) => chkE e v
  | SBlock l => chkL sw l v
  | SAuto ds => chkAuto (map fst ds) v
  | SExtrn ns => chkExtrn ns v
  | SIf e s1 | SWhile e s1 => opt_bind (chkE e v) (chkS false s1)
  | SIfElse e s1 s2 => opt_bind (chkE e v) (fun v => opt_bind (chkS false s1 v) (chkS false s2))
  | SSwitch e s1 => opt_bind (chkE e v) (chkS true s1)
  | SCase _ s1 => if sw then chkS true s1 v else None
  | SLabel _ s1 => chkS sw s1 v
  end
with chkL (sw : bool) (l : stmts) (v : senv) : option senv :=
  match l with
  | SNil => Some v
  | SCons s r => opt_bind (chkS sw s v) (chkL sw r)
  end.

(** Definitions: in a function the variables are at first its parameters;
    nothing but the functions and variables of the file remains after it. *)
Definition chkD (d : decl) (v : senv) : option senv :=
  match d with
  | DGlobal n _ | DVector n _ _ => Some (mkEnv [] [] (s_funs v) (n :: s_globs v))
  | DFunction n ps body =>
      opt_bind (chkS false body (mkEnv (rev ps) [] (n :: s_funs v) (s_globs v)))
               (fun v => Some (mkEnv [] [] (s_funs v) (s_globs v)))
  end.
Fixpoint chkP (ds : list decl) (v : senv) : option senv :=
  match ds with
  | [] => Some v
  | d :: r => opt_bind (chkD d v) (chkP r)
  end.
Definition empty_env : senv := mkEnv [] [] [] [].

(** Called names occur only in calls. *)
Fixpoint shE (e : expr) : Prop :=
  match e with
  | EInt _ | EStr _ | EVar _ => True
  | ECallee _ => False
  | EParen a | EPost _ a | EPre _ a | EAddr a | ENot a | ENeg a | EDeref a => shE a
  | EIdx a b | EBin _ a b | EAsg _ a b => shE a /\ shE b
  | ECall f args => match f with ECallee _ => True | EVar _ => False | _ => shE f end /\ shEs args
  | ECond a b c => shE a /\ shE b /\ shE c
  end
with shEs (l : exprs) : Prop := match l with ENil => True | ECons e r => shE e /\ shEs r end.
Fixpoint shS (s : stmt) : Prop :=
  match s with
  | SNull | SReturn None | SGoto _ | SAuto _ | SExtrn _ => True
  | SExpr e | SReturn (Some e) => shE e
  | SBlock l => shL l
  | SIf e s1 | SWhile e s1 | SSwitch e s1 => shE e /\ shS s1
  | SIfElse e s1 s2 => shE e /\ shS s1 /\ shS s2
  | SCase _ s1 | SLabel _ s1 => shS s1
  end
with shL (l : stmts) : Prop := match l with SNil => True | SCons s r => shS s /\ shL r end.
Definition shD (d : decl) : Prop := match d with DFunction _ _ b => shS b | _ => True end.
