(** * SpecSize: how long modules and programs are *)
From Coq Require Import List Ascii String ZArith.
From Verif Require Import Base IR Expr Syntax.
Import ListNotations.

Definition total {A} (f : A -> nat) (l : list A) : nat := fold_right (fun x n => f x + n)%nat 0%nat l.

(** ** Modules *)
(** The things a module consists of: instructions with their lists of operands,
    terminators with the values of a switch, blocks, functions with their
    parameters, variables with their initial values, characters of strings. An
    array of zeros is one thing, however long. *)
Definition inst_size (i : inst) : nat :=
  match i with
  | ICall _ _ _ _ args => S (List.length args)
  | IPhi _ inc => S (List.length inc)
  | _ => 1
  end.
Definition term_size (t : option term) : nat :=
  match t with
  | None => 0
  | Some (TSwitch _ _ cases) => S (List.length cases)
  | Some _ => 1
  end.
Definition block_size (b : block) : nat := S (total inst_size (b_insts b) + term_size (b_term b)).
Definition func_size (f : func) : nat := S (List.length (f_params f) + total block_size (f_blocks f)).
Definition init_size (g : ginit) : nat :=
  match g with
  | GWord _ | GZeros _ => 1
  | GWords _ ws => S (List.length ws)
  | GBytes bs => S (List.length bs)
  end.
Definition module_size (M : module_) : nat :=
  total (fun g => init_size (g_init g)) (m_globals M) + total func_size (m_funcs M).

(** ** Programs *)
(** The words of the vectors that are given initial values. *)
Definition filled (d : decl) : nat :=
  match d with
  | DVector _ n (_ :: _) => Z.to_nat n
  | _ => 0
  end.
Definition vectors (ds : list decl) : nat := total filled ds.
