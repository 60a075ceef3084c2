(** * SpecSem: what a B program does, independently of the code
    A reference semantics of the trees of Syntax.v: expressions, statements,
    functions and programs as total functions on a byte-addressed memory and
    an outside world. [Stuck] stands for undefined behaviour (an access outside
    the objects of the program, a division by zero ...) and for a memory that is
    full. The functions take a bound for the turns of loops, jumps and nested
    calls; [Limit] tells that a program needs more. *)
From Coq Require Import List Ascii String ZArith Bool.
From Verif Require Import Base Lexer IR Builder Expr Syntax.
Import ListNotations.
Open Scope Z_scope.

(** ** Memory *)
(** [m_byte]: contents, [None] where not initialised; [m_stack]: the objects of
    the active calls, latest first, as (address, bytes); [m_static]: all others. *)
Record memory := mkMem {
  m_byte : Z -> option Z;
  m_stack : list (Z * Z);
  m_static : list (Z * Z)
}.
Definition covers (a n : Z) (r : Z * Z) : bool := (fst r <=? a) && (a + n <=? fst r + snd r).
(** The [n] bytes at [a] lie in one object. *)
Definition accessible (m : memory) (a n : Z) : bool := existsb (covers a n) (m_stack m ++ m_static m).
(** A word can be accessed at [a]: aligned, and inside an object. *)
Definition word_ok (m : memory) (a : Z) : bool := (a mod 8 =? 0) && accessible m a 8.
(** Words are stored least significant byte first. *)
Fixpoint word_of (f : Z -> option Z) (a : Z) (n : nat) : option Z :=
  match n with
  | O => Some 0
  | S n' => match f a, word_of f (a + 1) n' with
            | Some b, Some r => Some (b + 256 * r)
            | _, _ => None
            end
  end.
Definition load (m : memory) (a : Z) : option Z :=
  if word_ok m a then match word_of (m_byte m) a 8 with Some z => Some (wrap64 z) | None => None end else None.
Definition store (m : memory) (a z : Z) : option memory :=
  if word_ok m a then
    Some (mkMem (fun x => if (a <=? x) && (x <? a + 8) then Some ((z / 256 ^ (x - a)) mod 256) else m_byte m x)
                (m_stack m) (m_static m))
  else None.
(** A new object of [n] bytes at an address chosen by [place]. *)
Definition alloc (place : memory -> Z -> option Z) (m : memory) (n : Z) : option (Z * memory) :=
  match place m n with
  | Some a => Some (a, mkMem (fun x => if (a <=? x) && (x <? a + n) then None else m_byte m x)
                             ((a, n) :: m_stack m) (m_static m))
  | None => None
  end.
(** The objects made since [m0] disappear. *)
Definition pop (m0 m : memory) : memory := mkMem (m_byte m) (m_stack m0) (m_static m).

(** ** The host *)
(** Result of a call outside the program: a value, or the process ends. *)
Inductive xres (W : Type) : Type :=
| XRet (z : Z) (m : memory) (w : W)
| XExit (z : Z) (w : W).
Arguments XRet {W}. Arguments XExit {W}.
(** [h_place] chooses addresses of new objects, [h_addr] gives the address of
    the global or function of a name, [h_lit k] that of the k-th string literal
    of the file, [h_fun] the function at an address, [h_ext] the effect of the
    functions that the file does not define. *)
Record host (W : Type) := mkHost {
  h_place : memory -> Z -> option Z;
  h_addr : string -> Z;
  h_lit : Z -> Z;
  h_fun : Z -> option string;
  h_ext : string -> list Z -> memory -> W -> option (xres W)
}.
Arguments h_place {W}. Arguments h_addr {W}. Arguments h_lit {W}. Arguments h_fun {W}. Arguments h_ext {W}.

(** ** Results *)
Inductive res (W A : Type) : Type :=
| Val (a : A) (m : memory) (w : W)
| Halt (z : Z) (w : W)
| Stuck
| Limit.
Arguments Val {W A}. Arguments Halt {W A}. Arguments Stuck {W A}. Arguments Limit {W A}.
Definition act (W A : Type) : Type := memory -> W -> res W A.
Definition done {W A} (a : A) : act W A := fun m w => Val a m w.
Definition stuck {W A} : act W A := fun _ _ => Stuck.
Definition limit {W A} : act W A := fun _ _ => Limit.
Definition andthen {W A B} (x : act W A) (f : A -> act W B) : act W B :=
  fun m w => match x m w with
             | Val a m' w' => f a m' w'
             | Halt z w' => Halt z w'
             | Stuck => Stuck
             | Limit => Limit
             end.
Declare Scope act_scope.
Delimit Scope act_scope with act.
Notation "x <~ m ;; k" := (andthen m (fun x => k)) (at level 61, m at next level, right associativity) : act_scope.
Notation "' p <~ m ;; k" := (andthen m (fun x => let p := x in k)) (at level 61, p pattern, m at next level, right associativity) : act_scope.
Open Scope act_scope.
Definition maybe {W A} (o : option A) : act W A := match o with Some a => done a | None => stuck end.
Definition load_ {W} (a : Z) : act W Z := fun m w => match load m a with Some z => Val z m w | None => Stuck end.
Definition store_ {W} (a z : Z) : act W unit := fun m w => match store m a z with Some m' => Val tt m' w | None => Stuck end.
Definition alloc_ {W} (H : host W) (n : Z) : act W Z :=
  fun m w => match alloc (h_place H) m n with Some (a, m') => Val a m' w | None => Stuck end.

(** ** Operators on 64-bit words *)
Definition arith (op : binop) (a b : Z) : option Z :=
  match op with
  | OAdd => Some (wrap64 (a + b))
  | OSub => Some (wrap64 (a - b))
  | OMul => Some (wrap64 (a * b))
  | OSDiv => if (b =? 0) || ((a =? - 2 ^ 63) && (b =? -1)) then None else Some (Z.quot a b)
  | OSRem => if (b =? 0) || ((a =? - 2 ^ 63) && (b =? -1)) then None else Some (Z.rem a b)
  | OAnd => Some (Z.land a b)
  | OOr => Some (Z.lor a b)
  | OShl => if (0 <=? b) && (b <? 64) then Some (wrap64 (Z.shiftl a b)) else None
  | OAShr => if (0 <=? b) && (b <? 64) then Some (Z.shiftr a b) else None
  end.
Definition truth (b : bool) : Z := if b then 1 else 0.
Definition compared (p : pred) (a b : Z) : Z :=
  truth (match p with
         | PEQ => a =? b | PNE => negb (a =? b)
         | PSLT => a <? b | PSLE => a <=? b | PSGT => b <? a | PSGE => b <=? a
         end).
Definition operate (op : cop) (a b : Z) : option Z :=
  match op with CBin o => arith o a b | CCmp p => Some (compared p a b) end.

(** ** String literals are numbered in the order of the text *)
Fixpoint lits (e : expr) : Z :=
  match e with
  | EInt _ | EVar _ | ECallee _ => 0
  | EStr _ => 1
  | EParen a | EPost _ a | EPre _ a | ENot a | ENeg a | EDeref a | EAddr a => lits a
  | EIdx a b | EBin _ a b | EAsg _ a b => lits a + lits b
  | ECond a b c => lits a + lits b + lits c
  | ECall f l => lits f + litsA l
  end
with litsA (l : exprs) : Z :=
  match l with ENil => 0 | ECons e r => lits e + litsA r end.
Fixpoint litsS (s : stmt) : Z :=
  match s with
  | SNull | SReturn None | SAuto _ | SExtrn _ | SGoto _ => 0
  | SExpr e | SReturn (Some e) => lits e
  | SBlock l => litsL l
  | SIf e s1 | SWhile e s1 | SSwitch e s1 => lits e + litsS s1
  | SIfElse e s1 s2 => lits e + litsS s1 + litsS s2
  | SCase _ s1 | SLabel _ s1 => litsS s1
  end
with litsL (l : stmts) : Z :=
  match l with SNil => 0 | SCons s r => litsS s + litsL r end.
Fixpoint litsI (l : list ival) : Z :=
  match l with [] => 0 | IvInt _ :: r => litsI r | IvStr _ :: r => 1 + litsI r end.
Definition litsD (d : decl) : Z :=
  match d with DGlobal _ l | DVector _ _ l => litsI l | DFunction _ _ s => litsS s end.

(** ** Names *)
(** What the names mean at a point of a function: its local variables and its
    external variables declared so far; all other names are functions. *)
Definition inb (x : string) (l : list string) : bool := existsb (String.eqb x) l.
Record scope := mkScope { sc_loc : list string; sc_ext : list string }.
Fixpoint after (sc : scope) (s : stmt) : scope :=
  match s with
  | SAuto l => mkScope (rev (map fst l) ++ sc_loc sc) (sc_ext sc)
  | SExtrn l => mkScope (sc_loc sc) (rev l ++ sc_ext sc)
  | SBlock l => afterL sc l
  | SIf _ s1 | SWhile _ s1 | SSwitch _ s1 | SCase _ s1 | SLabel _ s1 => after sc s1
  | SIfElse _ s1 s2 => after (after sc s1) s2
  | SNull | SExpr _ | SReturn _ | SGoto _ => sc
  end
with afterL (sc : scope) (l : stmts) : scope :=
  match l with SNil => sc | SCons s r => afterL (after sc s) r end.
(** The addresses of the local variables. *)
Definition env := string -> option Z.
Definition put (x : string) (a : Z) (r : env) : env := fun y => if String.eqb y x then Some a else r y.

Section Sem.
Context {W : Type}.
Variable H : host W.
(** Do the names of calls stand for local variables? In B they do. *)
Variable locals : bool.
(** The meaning of a call of a function by its name. *)
Variable call : string -> list Z -> act W Z.

(** The address of a variable, if the name is one. *)
Definition variable (sc : scope) (r : env) (x : string) : option (act W Z) :=
  if inb x (sc_loc sc) then Some (maybe (r x))
  else if inb x (sc_ext sc) then Some (done (h_addr H x))
  else None.
(** The address of the variable called by a name, if it is one. *)
Definition called (sc : scope) (r : env) (x : string) : option (act W Z) :=
  if locals then variable sc r x else if inb x (sc_ext sc) then Some (done (h_addr H x)) else None.
(** A call through an address. *)
Definition call_at (a : Z) (args : list Z) : act W Z :=
  match h_fun H a with Some x => call x args | None => stuck end.

(** ** Expressions *)
(** [rvalue k e]: the value of [e]; [lvalue k e]: the address of the lvalue [e];
    [k] literals precede [e] in the file. *)
Section Expr.
Variable sc : scope.
Variable r : env.
Definition step_by (op : binop) (a : Z) : act W (Z * Z) :=
  old <~ load_ a ;; new <~ maybe (arith op old 1) ;; _ <~ store_ a new ;; done (old, new).
Fixpoint rvalue (k : Z) (e : expr) : act W Z :=
  match e with
  | EInt z => done z
  | EStr _ => done (h_lit H k)
  | EVar x => match variable sc r x with
              | Some p => a <~ p ;; load_ a
              | None => done (h_addr H x)
              end
  | ECallee _ => stuck
  | EParen a => rvalue k a
  | EIdx a i => p <~ rvalue k a ;; n <~ rvalue (k + lits a) i ;; load_ (wrap64 (p + 8 * n))
  | ECall (ECallee x) args =>
      match called sc r x with
      | Some p => a <~ p ;; f <~ load_ a ;; vs <~ rvalues k args ;; call_at f vs
      | None => vs <~ rvalues k args ;; call x vs
      end
  | ECall f args => a <~ rvalue k f ;; vs <~ rvalues (k + lits f) args ;; call_at a vs
  | EPost op a => p <~ lvalue k a ;; '(old, _) <~ step_by op p ;; done old
  | EPre op a => p <~ lvalue k a ;; '(_, new) <~ step_by op p ;; done new
  | ENot a => v <~ rvalue k a ;; done (truth (v =? 0))
  | ENeg a => v <~ rvalue k a ;; done (wrap64 (- v))
  | EDeref a => p <~ rvalue k a ;; load_ p
  | EAddr a => lvalue k a
  | EBin op a b => v <~ rvalue k a ;; w <~ rvalue (k + lits a) b ;; maybe (operate op v w)
  | ECond a b c => v <~ rvalue k a ;; if v =? 0 then rvalue (k + lits a + lits b) c else rvalue (k + lits a) b
  | EAsg None a b => p <~ lvalue k a ;; v <~ rvalue (k + lits a) b ;; _ <~ store_ p v ;; done v
  | EAsg (Some op) a b =>
      p <~ lvalue k a ;; v <~ rvalue (k + lits a) b ;; old <~ load_ p ;; new <~ maybe (operate op old v) ;;
      _ <~ store_ p new ;; done new
  end
with lvalue (k : Z) (e : expr) : act W Z :=
  match e with
  | EVar x => match variable sc r x with Some p => p | None => stuck end
  | EIdx a i => p <~ rvalue k a ;; n <~ rvalue (k + lits a) i ;; done (wrap64 (p + 8 * n))
  | EDeref a => rvalue k a
  | EPre op a => p <~ lvalue k a ;; _ <~ step_by op p ;; done p
  | _ => stuck
  end
with rvalues (k : Z) (l : exprs) : act W (list Z) :=
  match l with
  | ENil => done []
  | ECons e rest => v <~ rvalue k e ;; vs <~ rvalues (k + lits e) rest ;; done (v :: vs)
  end.
End Expr.

(** ** Statements *)
(** Where execution is to start inside a statement ([None]: at its beginning)
    and how it leaves it. [Skip]: the starting point is not in it. *)
Inductive target := TLabel (l : string) | TCase (z : Z).
Definition start := option target.
Inductive flow := Fall | Jump (l : string) | Return (z : Z) | Skip.
(** The cases of the body of a switch. *)
Fixpoint cases (s : stmt) : list Z :=
  match s with
  | SCase z s1 => z :: cases s1
  | SLabel _ s1 => cases s1
  | SBlock l => casesL l
  | _ => []
  end
with casesL (l : stmts) : list Z :=
  match l with SNil => [] | SCons s rest => cases s ++ casesL rest end.
Definition is_label (t : start) (l : string) : bool :=
  match t with Some (TLabel m) => String.eqb m l | _ => false end.
Definition is_case (t : start) (z : Z) : bool :=
  match t with Some (TCase y) => y =? z | _ => false end.
(** The storage of automatic variables: a word holding 0, or a vector of [n]
    words after a word that holds its address. [-1] marks a plain variable. *)
Definition automatic (x : string) (n : Z) (r : env) : act W env :=
  if n =? -1 then a <~ alloc_ H 8 ;; _ <~ store_ a 0 ;; done (put x a r)
  else if n <? 0 then stuck
  else let n := if n =? 0 then 1 else n in
       a <~ alloc_ H (8 * (n + 1)) ;; _ <~ store_ a (a + 8) ;; done (put x a r).
Fixpoint automatics (l : list (string * Z)) (r : env) : act W env :=
  match l with
  | [] => done r
  | (x, n) :: rest => r <~ automatic x n r ;; automatics rest r
  end.

(** A loop makes at most [fuel] turns. *)
Variable fuel : nat.
Fixpoint loop (n : nat) (test : env -> act W Z) (body : env -> act W (flow * env)) (r : env) : act W (flow * env) :=
  match n with
  | O => limit
  | S n' =>
      v <~ test r ;;
      if v =? 0 then done (Fall, r)
      else '(f, r) <~ body r ;;
           match f with
           | Fall => loop n' test body r
           | Skip => stuck
           | _ => done (f, r)
           end
  end.
Fixpoint exec (sc : scope) (k : Z) (s : stmt) (t : start) (r : env) : act W (flow * env) :=
  match s with
  | SNull => match t with None => done (Fall, r) | Some _ => done (Skip, r) end
  | SExpr e => match t with None => _ <~ rvalue sc r k e ;; done (Fall, r) | Some _ => done (Skip, r) end
  | SBlock l => execL sc k l t r
  | SReturn o =>
      match t with
      | Some _ => done (Skip, r)
      | None => match o with
                | Some e => v <~ rvalue sc r k e ;; done (Return v, r)
                | None => done (Return 0, r)
                end
      end
  | SAuto l => match t with None => r <~ automatics l r ;; done (Fall, r) | Some _ => done (Skip, r) end
  | SExtrn _ => match t with None => done (Fall, r) | Some _ => done (Skip, r) end
  | SIf e s1 =>
      match t with
      | None => v <~ rvalue sc r k e ;; if v =? 0 then done (Fall, r) else exec sc (k + lits e) s1 None r
      | Some (TLabel _) => exec sc (k + lits e) s1 t r
      | Some (TCase _) => done (Skip, r)
      end
  | SIfElse e s1 s2 =>
      match t with
      | None => v <~ rvalue sc r k e ;;
                if v =? 0 then exec (after sc s1) (k + lits e + litsS s1) s2 None r
                else exec sc (k + lits e) s1 None r
      | Some (TLabel _) =>
          '(f, r') <~ exec sc (k + lits e) s1 t r ;;
          match f with
          | Skip => exec (after sc s1) (k + lits e + litsS s1) s2 t r
          | _ => done (f, r')
          end
      | Some (TCase _) => done (Skip, r)
      end
  | SWhile e s1 =>
      let again := loop fuel (fun r => rvalue sc r k e) (fun r => exec sc (k + lits e) s1 None r) in
      match t with
      | None => again r
      | Some (TLabel _) =>
          '(f, r') <~ exec sc (k + lits e) s1 t r ;;
          match f with Fall => again r' | _ => done (f, r') end
      | Some (TCase _) => done (Skip, r)
      end
  | SSwitch e s1 =>
      match t with
      | None => v <~ rvalue sc r k e ;;
                if existsb (Z.eqb v) (cases s1) then exec sc (k + lits e) s1 (Some (TCase v)) r
                else done (Fall, r)
      | Some (TLabel _) => exec sc (k + lits e) s1 t r
      | Some (TCase _) => done (Skip, r)
      end
  | SCase z s1 => exec sc k s1 (if is_case t z then None else t) r
  | SGoto l => match t with None => done (Jump l, r) | Some _ => done (Skip, r) end
  | SLabel l s1 => exec sc k s1 (if is_label t l then None else t) r
  end
with execL (sc : scope) (k : Z) (l : stmts) (t : start) (r : env) : act W (flow * env) :=
  match l with
  | SNil => match t with None => done (Fall, r) | Some _ => done (Skip, r) end
  | SCons s rest =>
      '(f, r') <~ exec sc k s t r ;;
      match f with
      | Fall => execL (after sc s) (k + litsS s) rest None r'
      | Skip => execL (after sc s) (k + litsS s) rest t r
      | _ => done (f, r')
      end
  end.

(** ** Functions *)
(** The body of a function: a jump continues at the label, wherever it is. *)
Fixpoint run (n : nat) (sc : scope) (k : Z) (body : stmt) (t : start) (r : env) : act W Z :=
  match n with
  | O => limit
  | S n' =>
      '(f, r) <~ exec sc k body t r ;;
      match f with
      | Fall => done 0
      | Return z => done z
      | Jump l => run n' sc k body (Some (TLabel l)) r
      | Skip => stuck
      end
  end.
(** The parameters are automatic variables holding the arguments. *)
Fixpoint parameters (ps : list string) (args : list Z) (r : env) : act W env :=
  match ps with
  | [] => done r
  | p :: ps' =>
      match args with
      | [] => stuck
      | z :: args' => a <~ alloc_ H 8 ;; _ <~ store_ a z ;; parameters ps' args' (put p a r)
      end
  end.
Definition invoke (n : nat) (ps : list string) (body : stmt) (k : Z) (args : list Z) : act W Z :=
  fun m0 w0 =>
    match (r <~ parameters ps args (fun _ => None) ;; run n (mkScope (rev ps) []) k body None r) m0 w0 with
    | Val z m w => Val z (pop m0 m) w
    | other => other
    end.
End Sem.

(** ** Programs *)
(** The last definition of a function, with the number of literals before it. *)
Fixpoint defined (k : Z) (ds : list decl) (x : string) (found : option (list string * stmt * Z)) : option (list string * stmt * Z) :=
  match ds with
  | [] => found
  | d :: rest =>
      defined (k + litsD d) rest x
        (match d with
         | DFunction y ps body => if String.eqb y x then Some (ps, body, k) else found
         | _ => found
         end)
  end.
(** Calling function [x] with at most [n] nested calls, turns of a loop and jumps. *)
Fixpoint calls {W} (H : host W) (locals : bool) (ds : list decl) (n : nat) (x : string) (args : list Z) : act W Z :=
  match n with
  | O => limit
  | S n' =>
      match defined 0 ds x None with
      | Some (ps, body, k) => invoke H locals (calls H locals ds n') n' n' ps body k args
      | None => fun m w => match h_ext H x args m w with
                           | Some (XRet z m' w') => Val z m' w'
                           | Some (XExit z w') => Halt z w'
                           | None => Stuck
                           end
      end
  end.
