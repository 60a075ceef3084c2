(** * TextTac: building texts of concrete trees, for examples *)
From Coq Require Import List Ascii String ZArith NArith Lia Bool Arith.
From Verif Require Import Base SpecLex IR Builder Expr Syntax SpecText SpecAccept RenderWf.
Import ListNotations.
Open Scope Z_scope.

Ltac t_ident := first [assumption|split; [repeat (apply Forall_cons || apply Forall_nil); unfold ident_char, letter, digit; cbn [code]; vm_compute; intuition congruence
  |split; [repeat (apply Forall_cons || apply Forall_nil); vm_compute; reflexivity|eexists _, _; split; [reflexivity|unfold letter; vm_compute; intuition congruence]]]].
Ltac t_apart := let E := fresh in intros ? ? E; vm_compute in E; injection E as <- _; vm_compute; intuition discriminate.
Ltac t_num := match goal with |- tNum ?z _ => apply (tNum_digits z ($(dec z)));
  [discriminate|repeat (apply Forall_cons || apply Forall_nil); vm_compute; intuition congruence|split; [vm_compute; intuition congruence|vm_compute; reflexivity]] end.
Ltac t_item := lazymatch goal with
  | |- item _ _ "010"%char => apply (item_escape _ "n"%char); vm_compute; intuition congruence
  | |- item _ _ "*"%char => apply (item_escape _ "*"%char); vm_compute; intuition congruence
  | |- item _ _ _ => apply item_plain; discriminate
  end.
Ltac t_items := lazymatch goal with
  | |- items _ _ [] => apply items_nil
  | |- items _ _ (_ :: _) => eapply items_cons; [t_item|t_items]
  end.
Ltac t_str := match goal with |- tStr ?x _ => let bs := eval vm_compute in (list_ascii_of_string x) in change x with (string_of_list_ascii bs);
  eapply tStr_items; [t_items|repeat (apply Forall_cons || apply Forall_nil); vm_compute; reflexivity] end.
Ltac t_lay := solve [apply lay_nil].
Ltac t_gap := match goal with |- gap ?w => unify w [" "%char]; split; [apply lay_white; [unfold white; vm_compute; tauto|apply lay_nil]|discriminate] end.
Ltac t_le := solve [auto with arith | lia].
Ltac t_E := lazymatch goal with
  | |- tE _ _ (EInt _) _ => eapply tE_up; [eapply tE_num; t_num|t_le]
  | |- tE _ _ (EStr _) _ => eapply tE_up; [eapply tE_str; t_str|t_le]
  | |- tE _ _ (EVar _) _ => eapply tE_up; [apply tE_var; t_ident|t_le]
  | |- tE _ _ (EParen _) _ => eapply tE_up; [eapply tE_paren; [t_E|t_lay|t_lay]|t_le]
  | |- tE _ _ (EIdx _ _) _ => eapply tE_up; [eapply tE_idx; [t_E|t_E|t_lay..]|t_le]
  | |- tE _ _ (ECall (ECallee _) _) _ => eapply tE_up; [eapply tE_callx; [t_ident|t_A|t_lay]|t_le]
  | |- tE _ _ (ECall _ _) _ => eapply tE_up; [eapply tE_call; [t_E|discriminate|t_A|t_lay]|t_le]
  | |- tE _ _ (EPost _ _) _ => eapply tE_up; [eapply tE_post; [t_E|reflexivity|t_lay]|t_le]
  | |- tE _ _ (EPre _ _) _ => eapply tE_up; [eapply tE_pre; [t_E|reflexivity|t_lay]|t_le]
  | |- tE _ _ (ENot _) _ => eapply tE_up; [eapply tE_not; [t_E|t_lay]|t_le]
  | |- tE _ _ (ENeg _) _ => eapply tE_up; [eapply tE_neg; [t_E|t_lay|t_apart]|t_le]
  | |- tE _ _ (EDeref _) _ => eapply tE_up; [eapply tE_deref; [t_E|t_lay]|t_le]
  | |- tE _ _ (EAddr _) _ => eapply tE_up; [eapply tE_addr; [t_E|t_lay]|t_le]
  | |- tE _ _ (EBin _ _ _) _ => eapply tE_up; [eapply tE_bin; [reflexivity|t_E|t_E|t_lay|t_lay|t_apart]|t_le]
  | |- tE _ _ (ECond _ _ _) _ => eapply tE_up; [eapply tE_cond; [t_E|t_E|t_E|t_lay..]|t_le]
  | |- tE _ _ (EAsg _ _ _) _ => eapply tE_up; [eapply tE_asg; [t_E|t_E|t_lay|t_lay|t_apart]|t_le]
  end
with t_A := lazymatch goal with
  | |- tA _ ENil _ => apply tA_nil
  | |- tA _ (ECons _ ENil) _ => eapply tA_one; [t_E|t_lay|t_lay]
  | |- tA _ (ECons _ _) _ => eapply tA_cons; [t_E|t_lay|t_lay|t_A|discriminate]
  end.
Ltac t_names := lazymatch goal with
  | |- tNames _ [_] _ => eapply tNames_end; [t_ident|t_lay]
  | |- tNames _ (_ :: _) _ => eapply tNames_more; [t_ident|t_lay|t_lay|t_names]
  end.
Ltac t_auto := lazymatch goal with
  | |- tAuto _ (-1) _ => apply tAuto_word; t_ident
  | |- tAuto _ _ _ => eapply tAuto_vec; [t_ident|left; t_num|t_lay..]
  end.
Ltac t_autos := lazymatch goal with
  | |- tAutos [_] _ => eapply tAutos_end; [t_auto|t_lay]
  | |- tAutos (_ :: _) _ => eapply tAutos_more; [t_auto|t_lay|t_lay|t_autos]
  end.
Ltac t_nokey := let E := fresh in intros ? E; cbn in E; (discriminate E || (injection E as <-; first [assumption|vm_compute; intuition discriminate])).
Ltac t_noelse := let E := fresh in intros ? E; vm_compute in E; discriminate E.
Ltac t_white := match goal with |- white ?c => unify c " "%char; unfold white; vm_compute; tauto end.
Ltac t_open := let H := fresh in intros H; (discriminate H || t_noelse).
Ltac t_S := lazymatch goal with
  | |- tS _ SNull _ => apply tS_null
  | |- tS _ (SExpr _) _ => eapply tS_expr; [t_E|t_nokey|t_lay]
  | |- tS _ (SBlock _) _ => eapply tS_block; [t_lay|t_L]
  | |- tS _ (SReturn None) _ => eapply tS_return; t_lay
  | |- tS _ (SReturn (Some _)) _ => eapply tS_returne; [t_E|t_lay..]
  | |- tS _ (SAuto _) _ => eapply tS_auto; [t_gap|t_autos]
  | |- tS _ (SExtrn _) _ => eapply tS_extrn; [t_gap|t_names]
  | |- tS _ (SIf _ _) _ => eapply tS_if; [t_E|t_S|t_lay..]
  | |- tS _ (SIfElse _ _ _) _ => eapply tS_ifelse; [t_E|t_S|t_S|reflexivity|t_lay|t_lay|t_lay|t_lay|t_lay|t_white|t_lay]
  | |- tS _ (SWhile _ _) _ => eapply tS_while; [t_E|t_S|t_lay..]
  | |- tS _ (SSwitch _ _) _ => eapply tS_switch; [t_E|t_S|t_lay|t_lay|vm_compute; intuition congruence|vm_compute; intuition congruence|eexists _, _; split; [reflexivity|auto]]
  | |- tS _ (SCase _ _) _ => eapply tS_case; [left; split; [t_gap|t_num]|t_S|t_lay..]
  | |- tS _ (SGoto _) _ => eapply tS_goto; [t_gap|t_ident|t_lay]
  | |- tS _ (SLabel _ _) _ => eapply tS_label; [t_ident|vm_compute; intuition discriminate|t_S|t_lay..]
  end
with t_L := lazymatch goal with
  | |- tL _ SNil _ => apply tL_nil
  | |- tL _ (SCons _ _) _ => eapply tL_cons; [t_S|t_lay|t_L|t_open]
  end.
Ltac t_ival := lazymatch goal with |- tIval (IvStr _) _ => apply tIval_str; t_str | |- _ => apply tIval_num; t_num end.
Ltac t_ivals := lazymatch goal with
  | |- tIvals [_] _ => eapply tIvals_end; [t_ival|t_lay]
  | |- tIvals (_ :: _) _ => eapply tIvals_more; [t_ival|t_lay|t_lay|t_ivals]
  end.
Ltac t_D := lazymatch goal with
  | |- tD _ (DGlobal _ []) _ => apply tD_word; t_ident
  | |- tD _ (DGlobal _ _) _ => eapply (tD_init _ _ [" "%char]); [t_ident|apply lay_white; [unfold white; vm_compute; tauto|apply lay_nil]|t_ivals|vm_compute; intuition congruence]
  | |- tD _ (DVector _ _ []) _ => eapply tD_vec; [t_ident|t_lay|t_lay|t_lay|left; t_num|right; split; reflexivity]
  | |- tD _ (DVector _ _ _) _ => eapply tD_vec; [t_ident|t_lay|t_lay|t_lay|left; t_num|left; t_ivals]
  | |- tD _ (DFunction _ [] _) _ => eapply tD_fun0; [t_ident|t_lay|t_S]
  | |- tD _ (DFunction _ _ _) _ => eapply tD_fun; [t_ident|t_lay|t_names|t_lay|t_S]
  end.
Ltac t_P := lazymatch goal with
  | |- tP _ [] _ => apply tP_nil
  | |- tP _ (_ :: _) _ => eapply tP_cons; [t_D|t_lay|t_P|t_open]
  end.
(** The text of a concrete tree, without layout. *)
Ltac text := lazymatch goal with |- xP _ _ => apply tP_xP | |- _ => idtac end; match goal with |- tP ?rr ?ds ?s => let H := fresh in let ds' := eval vm_compute in ds in
  assert (H : exists s', tP rr ds' s' /\ s' = s); [eexists; split; [t_P|vm_compute; reflexivity]|destruct H as (? & ? & <-); assumption] end.


Lemma tP_eq rr ds s s' : tP rr ds s -> s = s' -> tP rr ds s'.
Proof. intros H <-. exact H. Qed.
Example t1 : tP 4 [DGlobal "n" [IvInt 3]; DVector "v" 10 []; DFunction "f" ["a"; "b"]%string
   (SBlock (SCons (SAuto [("x"%string, -1); ("y"%string, 5)]) (SCons (SExtrn ["n"%string])
    (SCons (SIfElse (EBin (CCmp PSLT) (EVar "a") (EBin (CBin OAdd) (EVar "b") (EInt 1))) (SExpr (EAsg None (EVar "x") (EInt 2))) (SReturn None))
    (SCons (SSwitch (EParen (EVar "x")) (SBlock (SCons (SCase 1 (SExpr (ECall (ECallee "g") (ECons (EVar "x") (ECons (EVar "y") ENil))))) SNil)))
     (SCons (SReturn (Some (ENeg (EIdx (EVar "y") (EInt 0))))) SNil))))))]
  ($"n 3;v[10];f(a,b){auto x,y[5];extrn n;if(a<b+1)x=2;else return;switch(x){case 1:g(x,y);}return(-y[0]);}").
Proof. text. Qed.
Example t2 : tP 4 [DGlobal "s" [IvStr "ab*"]; DFunction "f" [] (SBlock (SCons (SReturn (Some (EStr (string_of_list_ascii ["c"; "010"]%char)))) SNil))]
  ($"s ""ab**"";f(){return(""c*n"");}").
Proof. text. Qed.
