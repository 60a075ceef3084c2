(** * SpecSure: programs that declare their variables before they use them
    A criterion on program trees. An automatic variable exists from its auto
    statement on; the statements after an if, a while or a switch can be reached
    around it, a label from every goto. [sure_function] follows the text and
    keeps the names declared so far, [L], and those declared on every way to
    the place, [D]; a name of [L] is used only when it is in [D]. *)
From Coq Require Import List Ascii String ZArith Bool.
From Verif Require Import Base IR Syntax SpecSem SpecTree.
Import ListNotations.

(** The variables an expression uses. *)
Fixpoint evars (e : expr) : list string :=
  match e with
  | EInt _ | EStr _ | ECallee _ => []
  | EVar x => [x]
  | EParen a | ENot a | ENeg a | EDeref a | EAddr a | EPost _ a | EPre _ a => evars a
  | EIdx a b | EBin _ a b | EAsg _ a b => evars a ++ evars b
  | ECond a b c => evars a ++ evars b ++ evars c
  | ECall f args => evars f ++ evarss args
  end
with evarss (l : exprs) : list string := match l with ENil => [] | ECons e r => evars e ++ evarss r end.
Definition listed (x : string) (l : list string) : bool := existsb (String.eqb x) l.
Definition usable (L D : list string) (e : expr) : bool := forallb (fun x => implb (listed x L) (listed x D)) (evars e).
(** The variables a statement declares. *)
Fixpoint autos (s : stmt) : list string :=
  match s with
  | SAuto l => map fst l
  | SBlock l => autosL l
  | SIf _ s1 | SWhile _ s1 | SSwitch _ s1 | SCase _ s1 | SLabel _ s1 => autos s1
  | SIfElse _ s1 s2 => autos s1 ++ autos s2
  | SNull | SExpr _ | SReturn _ | SExtrn _ | SGoto _ => []
  end
with autosL (l : stmts) : list string := match l with SNil => [] | SCons s r => autos s ++ autosL r end.

(** [B]: the names declared wherever a label is reached, if labels are
    allowed. The names sure after a statement that may be passed around: those
    before it, or those of the labels when it can be left through a label. *)
Definition around (B : option (list string)) (ls : list string) (D : list string) : list string :=
  match ls, B with _ :: _, Some X => X | _, _ => D end.
(** [keep]: the names declared wherever a case of the enclosing switch is
    reached. The result: the names declared after the statement. *)
Fixpoint sureS (B keep : option (list string)) (s : stmt) (L D : list string) : option (list string) :=
  match s with
  | SNull | SExtrn _ | SReturn None => Some D
  | SExpr e | SReturn (Some e) => if usable L D e then Some D else None
  | SBlock l => sureL B keep l L D
  | SAuto l => Some (map fst l ++ D)
  | SIf e s1 =>
      if usable L D e then match sureS B None s1 L D with Some _ => Some (around B (labels s1) D) | None => None end else None
  | SIfElse e s1 s2 =>
      if usable L D e then
        match sureS B None s1 L D, sureS B None s2 (L ++ autos s1) D with
        | Some _, Some _ => Some (around B (labels s1 ++ labels s2) D)
        | _, _ => None
        end
      else None
  | SWhile e s1 =>
      let D1 := around B (labels s1) D in
      if usable L D1 e then match sureS B None s1 L D1 with Some _ => Some D1 | None => None end else None
  | SSwitch e s1 =>
      let D1 := around B (labels s1) D in
      if usable L D e then match sureS B (Some D1) s1 L D1 with Some _ => Some D1 | None => None end else None
  | SCase _ s1 => match keep with Some k => sureS B keep s1 L k | None => None end
  | SGoto _ => match B with Some _ => Some D | None => None end
  | SLabel _ s1 => match B with Some X => sureS B keep s1 L X | None => None end
  end
with sureL (B keep : option (list string)) (l : stmts) (L D : list string) : option (list string) :=
  match l with
  | SNil => Some D
  | SCons s r => match sureS B keep s L D with Some D1 => sureL B keep r (L ++ autos s) D1 | None => None end
  end.
(** The statements of a body: up to some place without labels and gotos; what
    is declared there is declared wherever a label is reached. *)
Fixpoint sure_body (l : stmts) (L D : list string) : bool :=
  match sureL (Some D) None l L D with
  | Some _ => true
  | None =>
      match l with
      | SNil => false
      | SCons s r => match sureS None None s L D with Some D1 => sure_body r (L ++ autos s) D1 | None => false end
      end
  end.
Definition sure_function (ps : list string) (body : stmt) : bool :=
  sure_body (match body with SBlock l => l | s => SCons s SNil end) ps ps.
