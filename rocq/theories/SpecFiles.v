(** * SpecFiles: what a program of several files means
    The files are read as one text: the definitions of all files, one after the
    other, are the program of SpecSem.v. *)
From Coq Require Import List Ascii String ZArith Bool.
From Verif Require Import Base IR Builder Syntax SpecSem IRSem SimFun Files.
Import ListNotations.
Open Scope Z_scope.

(** A file: its definitions and its module. *)
Definition files := list (list decl * module_).
Definition text_of (fs : files) : list decl := flat_map fst fs.
Definition code_of (fs : files) : module_ := joined (map snd fs).
(** No function is defined in two files. *)
Definition once (fs : files) : Prop := forall i j di Mi dj Mj x ps b ps' b',
  nth_error fs i = Some (di, Mi) -> nth_error fs j = Some (dj, Mj) -> In (DFunction x ps b) di -> In (DFunction x ps' b') dj -> i = j.
(** The names in the text and the symbols in the code stand for the same
    addresses. The literals of the text are numbered through all files; each
    file has its own string constants. *)
Record together {W} (H : host W) (I : ihost W) (fs : files) : Prop := {
  tg_place : forall m n, i_place I m n = h_place H m n;
  tg_addr : forall x, i_sym I (globalName x) = h_addr H x;
  tg_lit : forall i ds M k, nth_error fs i = Some (ds, M) -> 0 <= k < literals ds ->
    h_lit H (literals (text_of (firstn i fs)) + k) = i_sym I (dec (Z.of_nat i) ++ ".str." ++ dec k)%string;
  tg_fun : forall a x, h_fun H a = Some x -> i_fun I a = Some (globalName x);
  tg_self : forall f x, In f (m_funcs (code_of fs)) -> f_name f = globalName x -> i_fun I (i_sym I (f_name f)) = Some (f_name f);
  tg_ext : forall x args m w, i_ext I (globalName x) args m w = h_ext H x args m w
}.
