(** * SpecOrder: the same definitions in another order *)
From Coq Require Import List Ascii String ZArith Permutation.
From Verif Require Import Base IR Expr Syntax SpecSem.
Import ListNotations.
Open Scope Z_scope.

(** The number of string literals in some definitions. *)
Definition literals_in (ds : list decl) : Z := fold_right (fun d n => litsD d + n) 0 ds.

(** [H] and [H'] are the same surroundings for the definitions [ds] and [ds'];
    the literals are numbered in the order of the text, so each has its own
    number in both, and is at the same place. *)
Record reordered {W} (H H' : host W) (ds ds' : list decl) : Prop := {
  ro_place : forall m n, h_place H m n = h_place H' m n;
  ro_addr : forall x, h_addr H x = h_addr H' x;
  ro_fun : forall a, h_fun H a = h_fun H' a;
  ro_ext : forall x args m w, h_ext H x args m w = h_ext H' x args m w;
  ro_lit : forall d before after before' after' i, ds = before ++ d :: after -> ds' = before' ++ d :: after' -> 0 <= i < litsD d ->
    h_lit H (literals_in before + i) = h_lit H' (literals_in before' + i)
}.
