(** * Ld: linking compiled files with the run-time library
    driver.go:286-388 (compileToExecutable) hands the compiled files and [-lb] to
    clang, on Linux with [-static -nostdlib]. The linker itself is not part of
    the repository: [link] is the usual rule for objects and archives. The
    symbols of the library are those of runtime/*.c. *)
From Coq Require Import List Ascii String ZArith Bool.
From Verif Require Import Base IR.
Import ListNotations.
Open Scope string_scope.
Open Scope list_scope.

(** What the linker sees of an object file: the symbols it defines and those it
    refers to. *)
Record object := mkObject { o_defs : list string; o_refs : list string }.

(** runtime/Makefile:7-19: the members of libb.a, in the order of the Makefile.
    The names are given by ALIAS, runtime/runtime.h:11-16,24-53, and by
    runtime/start.c:7; the references are the calls and the uses of [b_fout] in
    the bodies (printd.c:27, printf.c:17-57, printo.c:19, start.c:11-13,
    write.c:20, writeb.c:13). The Linux version ([start.c:3]). *)
Definition libb : list object :=
  [mkObject ["b.char"] [];
   mkObject ["b.exit"] [];
   mkObject ["b.flush"] [];
   mkObject ["b.lchar"] [];
   mkObject ["b.nread"] [];
   mkObject ["b.nwrite"] [];
   mkObject ["b.printd"] ["b.nwrite"; "b.fout"];
   mkObject ["b.printf"] ["b.char"; "b.write"; "b.printd"; "b.printo"];
   mkObject ["b.printo"] ["b.nwrite"; "b.fout"];
   mkObject ["b.read"] [];
   mkObject ["_start"] ["main"];
   mkObject ["b.write"] ["b.fout"];
   mkObject ["b.fout"; "b.writeb"] ["b.fout"]].

(** Not in the repository: the linker. [wanted]: a symbol that is referred to
    and not defined so far; the entry point [_start] always is referred to. *)
Definition isIn (x : string) (l : list string) : bool := existsb (String.eqb x) l.
Definition defs_of (os : list object) : list string := flat_map o_defs os.
Definition refs_of (os : list object) : list string := "_start" :: flat_map o_refs os.
Definition wanted (os : list object) (x : string) : bool := isIn x (refs_of os) && negb (isIn x (defs_of os)).
(** The first member of an archive that defines a wanted symbol, and the other
    members. *)
Fixpoint pick (os archive : list object) : option (object * list object) :=
  match archive with
  | [] => None
  | o :: r =>
      if existsb (wanted os) (o_defs o) then Some (o, r)
      else match pick os r with Some (o', r') => Some (o', o :: r') | None => None end
  end.
(** Members are taken from the archive as long as one of them defines a wanted
    symbol. *)
Fixpoint extract (n : nat) (os archive : list object) : list object :=
  match n with
  | O => os
  | S n' => match pick os archive with Some (o, r) => extract n' (os ++ [o]) r | None => os end
  end.
(** Two definitions of one symbol are an error, and so is a symbol that is
    referred to and not defined. *)
Fixpoint twice (l : list string) : option string :=
  match l with [] => None | x :: r => if isIn x r then Some x else twice r end.
Inductive ld_result := Linked (os : list object) | Duplicate (x : string) | Undefined (x : string).
Definition link (objs archive : list object) : ld_result :=
  let os := extract (List.length archive) objs archive in
  match twice (defs_of os) with
  | Some x => Duplicate x
  | None => match find (wanted os) (refs_of os) with Some x => Undefined x | None => Linked os end
  end.

(** The object made of a module. Its definitions are the functions with a body
    and the variables that are not private (irbuilder.go:488: only string
    constants are). It may refer to its declared functions; LLVM's own
    (irbuilder.go:364-366,384-386) are no symbols, and a declared function need
    not be used. Simplification: the code generator adds no references of its
    own (such as memset). *)
Definition intrinsic (x : string) : bool := prefix "llvm." x.
Definition has_body (f : func) : bool := match f_blocks f with [] => false | _ => true end.
Definition module_defs (M : module_) : list string :=
  map g_name (filter (fun g => negb (g_private g)) (m_globals M)) ++ map f_name (filter has_body (m_funcs M)).
Definition module_refs (M : module_) : list string :=
  filter (fun x => negb (intrinsic x)) (map f_name (filter (fun f => negb (has_body f)) (m_funcs M))).
Definition object_of (M : module_) (o : object) : Prop :=
  o_defs o = module_defs M /\ incl (o_refs o) (module_refs M ++ module_defs M).
