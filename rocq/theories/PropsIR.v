(** * PropsIR: well-formedness of the generated code (C24) *)
From Coq Require Import List Ascii String ZArith Lia Bool.
From Verif Require Import Base Lexer IR Builder Expr Stmt Decl SpecIR Syntax Pure ParseGen InvDecl.
Import ListNotations.
Open Scope Z_scope.

(** ** C24: in the module of an accepted file every branch, switch and phi
    names a block of its function, every register is assigned by exactly one
    instruction, and every register, global, function and parameter used as
    an operand exists. *)
Theorem C24_module_well_formed : forall (inp : list ascii) (failing : bool) (m : module_),
  compile inp failing = Ok m tt -> wf_module m.
Proof.
  intros inp fl m H. destruct (compile_sound _ _ _ H) as (ds & _ & G). eapply generate_wf; eauto.
Qed.
Print Assumptions C24_module_well_formed.

Definition sample24 : string :=
  "f(a,b){ auto i,v[3]; extrn g; i=0; while(i<3){ if(v[i]>b) goto out; else v[i]=a?b:g(i); i++; } out: switch(i){ case 1: return(1); case 2: i=* 2; } return(i); } g 5;".
Example C24_nontrivial : exists m, compile_string sample24 = Ok m tt /\
  map (fun f => List.length (f_blocks f)) (m_funcs m) = [17; 0; 0]%nat.
Proof. eexists. split; [vm_compute; reflexivity|]. vm_compute. reflexivity. Qed.
