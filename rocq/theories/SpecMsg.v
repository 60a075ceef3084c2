(** * SpecMsg: the error message for a program that breaks the scope rules
    The rules of SpecStatic.v with the message of the first one that is broken,
    in the order of the text. *)
From Coq Require Import List Ascii String ZArith Bool.
From Verif Require Import Base IR Expr Syntax SpecStatic SpecOcc.
Import ListNotations.
Open Scope string_scope.
Open Scope list_scope.

Definition quoted (before x after : string) : string := (before ++ "'" ++ x ++ "'" ++ after)%string.
Definition orelse (a b : option string) : option string := match a with Some m => Some m | None => b end.
Definition unless (b : bool) (m : string) : option string := if b then None else Some m.
Definition step_sign (op : binop) : string := match op with OAdd => "++" | _ => "--" end.

Fixpoint msgE (vars : list string) (q : bool) (e : expr) : option string :=
  match e with
  | EInt _ | EStr _ | ECallee _ => None
  | EVar x => unless (isin x vars || negb q) (quoted "undefined identifier " x "")
  | EParen a => msgE vars false a
  | EIdx a i => orelse (msgE vars false a) (msgE vars false i)
  | ECall f args => orelse (msgE vars false f) (msgArgs vars args)
  | EPost op a => orelse (msgE vars false a) (unless (lvalue vars a) (quoted "expected lvalue for postfix " (step_sign op) ""))
  | EPre op a => orelse (msgE vars q a) (unless (lvalue vars a) (quoted "expected lvalue after " (step_sign op) ""))
  | EAddr a => orelse (msgE vars q a) (unless (lvalue vars a) (quoted "expected lvalue after " "&" ""))
  | ENot a | ENeg a | EDeref a => msgE vars q a
  | EBin op a b => orelse (msgE vars (match op with CCmp PEQ => true | _ => false end) a) (msgE vars q b)
  | ECond a b c => orelse (msgE vars false a) (orelse (msgE vars false b) (msgE vars q c))
  | EAsg _ a b => orelse (msgE vars true a) (orelse (unless (lvalue vars a) "left operand of assignment must be an lvalue") (msgE vars q b))
  end
with msgArgs (vars : list string) (l : exprs) : option string :=
  match l with ENil => None | ECons e r => orelse (msgE vars false e) (msgArgs vars r) end.

(** The message, or what is declared afterwards. *)
Definition found : Type := string + senv.
Definition then_ (o : found) (k : senv -> found) : found := match o with inl m => inl m | inr v => k v end.

Definition dgE (e : expr) (v : senv) : found :=
  match msgE (vars_of v) false e with
  | Some m => inl m
  | None => inr (mkEnv (s_locs v) (s_exts v) (usedF (vars_of v) (s_exts v) e ++ s_funs v) (s_globs v))
  end.
Fixpoint dgAuto (names : list string) (v : senv) : found :=
  match names with
  | [] => inr v
  | x :: r => if isin x (s_locs v) then inl (quoted "identifier " x " already defined in this scope")
              else dgAuto r (mkEnv (x :: s_locs v) (s_exts v) (s_funs v) (s_globs v))
  end.
Fixpoint dgExtrn (names : list string) (v : senv) : found :=
  match names with
  | [] => inr v
  | x :: r =>
      if isin x (s_globs v) then dgExtrn r (mkEnv (s_locs v) (x :: s_exts v) (s_funs v) (s_globs v))
      else if isin x (s_funs v) then inl "function redeclared as variable"
      else dgExtrn r (mkEnv (s_locs v) (x :: s_exts v) (s_funs v) (x :: s_globs v))
  end.
Fixpoint dgS (sw : bool) (s : stmt) (v : senv) : found :=
  match s with
  | SNull | SReturn None | SGoto _ => inr v
  | SExpr e | SReturn (Some e) => dgE e v
  | SBlock l => dgL sw l v
  | SAuto ds => dgAuto (map fst ds) v
  | SExtrn ns => dgExtrn ns v
  | SIf e s1 | SWhile e s1 => then_ (dgE e v) (dgS false s1)
  | SIfElse e s1 s2 => then_ (dgE e v) (fun v => then_ (dgS false s1 v) (dgS false s2))
  | SSwitch e s1 => then_ (dgE e v) (dgS true s1)
  | SCase _ s1 => if sw then dgS true s1 v else inl "unexpected 'case' outside of 'switch' statements"
  | SLabel _ s1 => dgS sw s1 v
  end
with dgL (sw : bool) (l : stmts) (v : senv) : found :=
  match l with
  | SNil => inr v
  | SCons s r => then_ (dgS sw s v) (dgL sw r)
  end.
Definition dgD (d : decl) (v : senv) : found :=
  match d with
  | DGlobal n _ | DVector n _ _ => inr (mkEnv [] [] (s_funs v) (n :: s_globs v))
  | DFunction n ps body =>
      then_ (dgS false body (mkEnv (rev ps) [] (n :: s_funs v) (s_globs v)))
            (fun v => inr (mkEnv [] [] (s_funs v) (s_globs v)))
  end.
Fixpoint dgP (ds : list decl) (v : senv) : found :=
  match ds with
  | [] => inr v
  | d :: r => then_ (dgD d v) (dgP r)
  end.
(** The message for a file. *)
Definition message (ds : list decl) : option string := match dgP ds empty_env with inl m => Some m | inr _ => None end.

(** ** What a message says about the program *)
(** The expressions of a statement, each with the names that are variables of
    the function where it stands: those of [d] and those declared before it in
    the statement. *)
Definition declS (s : stmt) : list string := autosS s ++ extrnsS s.
Fixpoint placesS (d : list string) (s : stmt) : list (list string * expr) :=
  match s with
  | SNull | SReturn None | SGoto _ | SAuto _ | SExtrn _ => []
  | SExpr e | SReturn (Some e) => [(d, e)]
  | SBlock l => placesL d l
  | SIf e s1 | SWhile e s1 | SSwitch e s1 => (d, e) :: placesS d s1
  | SIfElse e s1 s2 => (d, e) :: placesS d s1 ++ placesS (d ++ declS s1) s2
  | SCase _ s1 | SLabel _ s1 => placesS d s1
  end
with placesL (d : list string) (l : stmts) : list (list string * expr) :=
  match l with SNil => [] | SCons s r => placesS d s ++ placesL (d ++ declS s) r end.
(** An operation that needs an operand that designates storage: its message
    and the operand. *)
Definition needs_storage (e : expr) : option (string * expr) :=
  match e with
  | EPost op a => Some (quoted "expected lvalue for postfix " (step_sign op) "", a)
  | EPre op a => Some (quoted "expected lvalue after " (step_sign op) "", a)
  | EAddr a => Some (quoted "expected lvalue after " "&" "", a)
  | EAsg _ a _ => Some ("left operand of assignment must be an lvalue", a)
  | _ => None
  end.
(** A reason in the expression [e], where [d] are the variables. *)
Definition causeE (d : list string) (e : expr) (m : string) : Prop :=
  (exists x, m = quoted "undefined identifier " x "" /\ In (EVar x) (subE e) /\ ~ In x d) \/
  (exists e' a, In e' (subE e) /\ needs_storage e' = Some (m, a) /\ lvalue d a = false).
Definition named (x : string) (e : expr) : Prop := In (EVar x) (subE e) \/ In (ECallee x) (subE e).
(** A reason in a statement with the expressions [pl], the autos [au], the
    extrns [ex], where [locs] are declared by the function and [funs] are names
    of functions; [st]: it has a case outside of any switch. *)
Inductive cause (locs : list string) (funs : string -> Prop) (pl : list (list string * expr)) (au ex : list string) (st : Prop) : string -> Prop :=
| ca_expr d e m : In (d, e) pl -> causeE d e m -> cause locs funs pl au ex st m
| ca_auto x l1 l2 : au = l1 ++ x :: l2 -> In x locs \/ In x l1 ->
    cause locs funs pl au ex st (quoted "identifier " x " already defined in this scope")
| ca_extrn x : In x ex -> funs x \/ (exists d e, In (d, e) pl /\ named x e) ->
    cause locs funs pl au ex st "function redeclared as variable"
| ca_case : st -> cause locs funs pl au ex st "unexpected 'case' outside of 'switch' statements".
(** A reason in the body of a function with the parameters [ps]. *)
Definition body_cause (ps : list string) (funs : string -> Prop) (b : stmt) (m : string) : Prop :=
  cause ps funs (placesS ps b) (autosS b) (extrnsS b) (stray b) m.
(** The names of functions: defined in [ds], or used there in an expression. *)
Definition function_in (ds : list decl) (x : string) : Prop :=
  exists f ps b, In (DFunction f ps b) ds /\ (x = f \/ exists d e, In (d, e) (placesS ps b) /\ named x e).
