(** * SpecLd: what linking with an archive means
    Without reference to the order in which the linker works. *)
From Coq Require Import List String.
From Verif Require Import Base Ld.
Import ListNotations.
Open Scope string_scope.
Open Scope list_scope.

(** The symbols the program needs from the archive: the entry point, what the
    objects refer to, and what members that are needed refer to, as far as the
    objects do not define them. *)
Inductive needed (objs archive : list object) : string -> Prop :=
| needed_start : ~ In "_start" (defs_of objs) -> needed objs archive "_start"
| needed_here o x : In o objs -> In x (o_refs o) -> ~ In x (defs_of objs) -> needed objs archive x
| needed_by y m x : needed objs archive y -> In m archive -> In y (o_defs m) -> In x (o_refs m) ->
    ~ In x (defs_of objs) -> needed objs archive x.
Definition taken (objs archive : list object) (m : object) : Prop :=
  In m archive /\ exists x, In x (o_defs m) /\ needed objs archive x.

(** Every symbol has one definition, and every symbol referred to has one. *)
Definition sound (os : list object) : Prop :=
  NoDup (defs_of os) /\ In "_start" (defs_of os) /\ forall o x, In o os -> In x (o_refs o) -> In x (defs_of os).

(** The conditions under which objects that define [D] and refer to [R] can be
    linked with the library. [prints]: they make the linker take a member that
    refers to [b.fout]. *)
Definition prints (D R : list string) : Prop :=
  In "b.fout" R \/ exists f, In f ["b.write"; "b.printd"; "b.printo"] /\ ~ In f D /\ (In f R \/ In "b.printf" R /\ ~ In "b.printf" D).
Definition linkable (D R : list string) : Prop :=
  NoDup D /\ In "main" D /\ (forall x, In x R -> In x D \/ In x (defs_of libb)) /\
  ~ (In "b.fout" D /\ ~ In "b.writeb" D /\ In "b.writeb" R) /\
  ~ (In "b.writeb" D /\ ~ In "b.fout" D /\ prints D R).
