(** * FinalS: the comparison of Final.v for statements and declarations *)
From Coq Require Import List Ascii String ZArith NArith Lia Bool.
From Verif Require Import Base Lexer IR Builder Expr Stmt Decl Totality FuelMono SpecDiag DiagFacts Final FinalP.
Import ListNotations.
Open Scope Z_scope.
Open Scope m_scope.
Open Scope list_scope.

Lemma d_expression n i : In i [[]; equal] -> dead i (parseExpression n) never.
Proof. intros H. unfold parseExpression. apply (dead_expr n). cbn [In] in *. tauto. Qed.
Lemma w_expression n : two (parseExpression n) (late [[]; equal]).
Proof.
  unfold parseExpression. eapply two_weak; [apply (two_expr n)|]. intros a i [->|[->|(H & _)]]; [left|right; left|lia]; reflexivity.
Qed.

(** What may be left when the end was seen while looking for "else". *)
Definition some_else (a : list ascii * bool) (j : list ascii) : Prop := j = [] /\ snd a = false /\ In (fst a) [[]; rev e1; rev e2; rev e3].
Ltac se := unfold some_else; cbn [fst snd]; split; [reflexivity|split; [reflexivity|in_list]].
Lemma w_readElse : two (readElse (list_ascii_of_string "else") []) some_else.
Proof. cbn [list_ascii_of_string readElse]. both; se. Qed.
Lemma d_readElse i : In i [[]; e1; e2; e3] -> dead i (readElse (list_ascii_of_string "else") []) some_else.
Proof. intros H. cbn [In] in H. cbn [list_ascii_of_string readElse]. clean; repeat d_step; se. Qed.
Lemma d_unreadElse a : In a [[]; rev e1; rev e2; rev e3] -> dead [] (unreadAll a) (late [[]; e1; e2; e3]).
Proof. intros H. cbn [In] in H. clean; cbn [unreadAll rev app e1 e2 e3]; repeat d_step. Qed.
Lemma d_elseFollows_at b : snd b = false -> In (fst b) [[]; rev e1; rev e2; rev e3] ->
  dead [] (let '(acc, ok) := b in
    if ok : bool then
      r <- rc ;;
      match r with
      | inl _ => ret true
      | inr ch => if IsLetter ch || IsDigit ch then unreadAll (ch :: acc) ;;; ret false else ret true
      end
    else unreadAll acc ;;; ret false) (late [[]; e1; e2; e3]).
Proof.
  destruct b as (a, ok). cbn [fst snd]. intros -> H. eapply dead_bind; [apply d_unreadElse, H|]. intros ? j HJ. apply dead_ret. exact HJ.
Qed.
Lemma w_elseFollows : two elseFollows (late [[]; e1; e2; e3]).
Proof.
  unfold elseFollows. eapply two_bind; [apply w_readElse| |].
  - intros (a, ok). destruct ok; both.
  - intros b j (-> & H1 & H2). apply d_elseFollows_at; assumption.
Qed.
Lemma d_elseFollows_any i : In i [[]; e1; e2; e3] -> dead i elseFollows (late [[]; e1; e2; e3]).
Proof.
  intros H. unfold elseFollows. eapply dead_bind; [apply d_readElse, H|].
  intros b j (-> & H1 & H2). apply d_elseFollows_at; assumption.
Qed.
(** No "else" once the end was seen. *)
Lemma dd_elseFollows i : In i [[]; e1; e2; e3] -> dead i elseFollows (fun a j => a = false /\ In j [[]; e1; e2; e3]).
Proof.
  intros H. unfold elseFollows. eapply dead_bind; [apply d_readElse, H|].
  intros (a, ok) j (-> & H1 & H2). cbn [fst snd] in *. subst ok. eapply dead_bind; [apply d_unreadElse, H2|]. intros ? j HJ. apply dead_ret. split; [reflexivity|exact HJ].
Qed.

(** ** Statements *)
Definition DS (n : nat) : Prop :=
  (forall sw i, In i [[]; equal; e1; e2; e3] -> dead i (statement n sw) never) /\
  (forall sw i, In i [[]; equal; e1; e2; e3] -> dead i (blockLoop n sw) never) /\
  (forall sw i, In i [[]; e1; e2; e3] -> dead i (keyword n sw) never) /\
  dead [] (parseIf n) never /\ dead [] (parseWhile n) never /\ dead [] (parseSwitch n) never /\
  (forall sw, dead [] (parseCase n sw) never).
Lemma d_parseReturn n : dead [] (parseReturn n) never.
Proof. unfold parseReturn. both. Qed.
Lemma d_parseAuto n : dead [] (parseAuto n) never.
Proof. unfold parseAuto. destruct n as [|n]; [apply dead_fuel|]. cbn [autoLoop]. both. Qed.
Lemma d_parseExtrn n : dead [] (parseExtrn n) never.
Proof. destruct n as [|n]; [apply dead_fuel|]. cbn [parseExtrn]. both. Qed.
Lemma d_parseGoto : dead [] parseGoto never.
Proof. unfold parseGoto. both. Qed.
Ltac d_rec ::=
  lazymatch goal with
  | |- dead _ (parseExpression _) _ => apply d_expression; solve [in_list]
  | |- dead _ (parseReturn _) _ => apply d_parseReturn
  | |- dead _ (parseAuto _) _ => apply d_parseAuto
  | |- dead _ (parseExtrn _) _ => apply d_parseExtrn
  | |- dead _ parseGoto _ => apply d_parseGoto
  | |- dead _ elseFollows _ => apply d_elseFollows_any; solve [in_list]
  | |- dead _ (statement _ _) _ => match goal with H : forall sw i, In i _ -> dead i (statement _ sw) _ |- _ => apply H; solve [in_list] end
  | |- dead _ (blockLoop _ _) _ => match goal with H : forall sw i, In i _ -> dead i (blockLoop _ sw) _ |- _ => apply H; solve [in_list] end
  | |- dead _ (keyword _ _) _ => match goal with H : forall sw i, In i _ -> dead i (keyword _ sw) _ |- _ => apply H; solve [in_list] end
  | |- dead _ (parseIf _) _ => eassumption
  | |- dead _ (parseWhile _) _ => eassumption
  | |- dead _ (parseSwitch _) _ => eassumption
  | |- dead _ (parseCase _ _) _ => match goal with H : forall sw, dead [] (parseCase _ sw) _ |- _ => apply H end
  end.
Lemma dead_stmt n : DS n.
Proof.
  induction n as [|n (IH1 & IH2 & IH3 & IH4 & IH5 & IH6 & IH7)];
    [unfold DS; repeat match goal with |- _ /\ _ => split end; intros; apply dead_fuel|].
  unfold DS; repeat match goal with |- _ /\ _ => split end.
  - intros sw i H. cbn [statement]. cbn [In] in H. clean; repeat d_step.
  - intros sw i H. cbn [blockLoop]. cbn [In] in H. clean; repeat d_step.
  - intros sw i H. cbn [keyword]. cbn [In] in H. clean; repeat d_step.
  - cbn [parseIf]. repeat d_step.
  - cbn [parseWhile]. repeat d_step.
  - cbn [parseSwitch]. repeat d_step.
  - intros sw. cbn [parseCase]. unfold caseValue. repeat d_step.
Qed.

Ltac w_rec ::=
  lazymatch goal with
  | |- two (parseExpression _) _ => apply w_expression
  end.
Lemma w_parseReturn n : two (parseReturn n) never.
Proof. unfold parseReturn. both. Qed.
Lemma w_autoSize : two autoSize never.
Proof. unfold autoSize. both. Qed.
Lemma w_autoLoop n : forall seen decls, two (autoLoop n seen decls) never.
Proof.
  induction n as [|n IH]; intros seen decls; [apply two_fuel|]. cbn [autoLoop].
  repeat (first [apply IH | apply (two_sync _ _ _ w_autoSize); intros ? | w_step | d_step]).
Qed.
Lemma w_parseAuto n : two (parseAuto n) never.
Proof. unfold parseAuto. apply (two_sync _ _ _ (w_autoLoop _ _ _)). intros ds. apply (two_indep _ never), i_declareAutos. Qed.
Lemma w_parseExtrn n : two (parseExtrn n) never.
Proof. induction n as [|n IH]; [apply two_fuel|]. cbn [parseExtrn]. repeat (first [apply IH | w_step | d_step]). Qed.
Lemma w_parseGoto : two parseGoto never.
Proof. unfold parseGoto. both. Qed.
Lemma w_caseValue : two caseValue (late [[]]).
Proof. unfold caseValue. both. Qed.

Definition WS (n : nat) : Prop :=
  (forall sw, two (statement n sw) (late [[]; e1; e2; e3])) /\
  (forall sw, two (blockLoop n sw) (late [[]; e1; e2; e3])) /\
  (forall sw, two (keyword n sw) (late [[]; e1; e2; e3])) /\
  two (parseIf n) (late [[]; e1; e2; e3]) /\ two (parseWhile n) (late [[]; e1; e2; e3]) /\ two (parseSwitch n) (late [[]; e1; e2; e3]) /\
  (forall sw, two (parseCase n sw) (late [[]; e1; e2; e3])).
Ltac w_rec ::=
  lazymatch goal with
  | |- two (parseExpression _) _ => apply w_expression
  | |- two (parseReturn _) _ => apply w_parseReturn
  | |- two (parseAuto _) _ => apply w_parseAuto
  | |- two (parseExtrn _) _ => apply w_parseExtrn
  | |- two parseGoto _ => apply w_parseGoto
  | |- two caseValue _ => apply w_caseValue
  | |- two elseFollows _ => apply w_elseFollows
  | |- two (statement _ _) _ => match goal with H : forall sw, two (statement _ sw) _ |- _ => apply H end
  | |- two (blockLoop _ _) _ => match goal with H : forall sw, two (blockLoop _ sw) _ |- _ => apply H end
  | |- two (keyword _ _) _ => match goal with H : forall sw, two (keyword _ sw) _ |- _ => apply H end
  | |- two (parseIf _) _ => eassumption
  | |- two (parseWhile _) _ => eassumption
  | |- two (parseSwitch _) _ => eassumption
  | |- two (parseCase _ _) _ => match goal with H : forall sw, two (parseCase _ sw) _ |- _ => apply H end
  end.
Lemma two_stmt n : WS n.
Proof.
  induction n as [|n (IH1 & IH2 & IH3 & IH4 & IH5 & IH6 & IH7)];
    [unfold WS; repeat match goal with |- _ /\ _ => split end; intros; apply two_fuel|].
  destruct (dead_stmt n) as (D1 & D2 & D3 & D4 & D5 & D6 & D7).
  unfold WS; repeat match goal with |- _ /\ _ => split end.
  - intros sw. cbn [statement]. both.
  - intros sw. cbn [blockLoop]. both.
  - intros sw. cbn [keyword]. both.
  - cbn [parseIf]. both.
  - cbn [parseWhile]. both.
  - cbn [parseSwitch]. both.
  - intros sw. cbn [parseCase]. both.
Qed.

(** ** Declarations *)
Lemma w_ivalConst : two parseIvalConst (late [[]]).
Proof. unfold parseIvalConst. both. Qed.
Lemma d_ivalConst : dead [] parseIvalConst never.
Proof. unfold parseIvalConst. both. Qed.
Ltac w_rec ::=
  lazymatch goal with
  | |- two parseIvalConst _ => apply w_ivalConst
  end.
Ltac d_rec ::=
  lazymatch goal with
  | |- dead _ parseIvalConst _ => apply d_ivalConst
  end.
Lemma w_ivalLoop n : forall acc, two (ivalLoop n acc) never.
Proof.
  induction n as [|n IH]; intros acc; [apply two_fuel|]. cbn [ivalLoop].
  repeat (first [apply IH | w_step | d_step]).
Qed.
Lemma w_parseArguments n : forall acc, two (parseArguments n acc) never.
Proof.
  induction n as [|n IH]; intros acc; [apply two_fuel|]. cbn [parseArguments].
  repeat (first [apply IH | w_step | d_step]).
Qed.
Ltac w_rec ::=
  lazymatch goal with
  | |- two (ivalLoop _ _) _ => apply w_ivalLoop
  | |- two (parseArguments _ _) _ => apply w_parseArguments
  | |- two (statement _ _) _ => apply two_stmt
  end.
Lemma w_parseGlobal n x : two (parseGlobal n x) never.
Proof. unfold parseGlobal. both. Qed.
Lemma w_parseVector n x : two (parseVector n x) never.
Proof. unfold parseVector. both. Qed.
Lemma w_parseFunction n x : two (parseFunction n x) (late [[]; e1; e2; e3]).
Proof. unfold parseFunction. both. Qed.
Ltac w_rec ::=
  lazymatch goal with
  | |- two (parseGlobal _ _) _ => apply w_parseGlobal
  | |- two (parseVector _ _) _ => apply w_parseVector
  | |- two (parseFunction _ _) _ => apply w_parseFunction
  end.
Lemma w_declaration n x : two (declaration n x) (late [[]; e1; e2; e3]).
Proof. unfold declaration. both. Qed.
Lemma d_declaration n x : dead [] (declaration n x) never.
Proof. unfold declaration. both. Qed.
Ltac w_rec ::=
  lazymatch goal with
  | |- two (declaration _ _) _ => apply w_declaration
  end.
Ltac d_rec ::=
  lazymatch goal with
  | |- dead _ (declaration _ _) _ => apply d_declaration
  end.
Definition whatever {A} (a : A) (j : list ascii) : Prop := True.
Lemma d_ParseDeclarations n i : In i [[]; e1; e2; e3] -> dead i (ParseDeclarations n) whatever.
Proof.
  destruct n as [|n]; [intros _; apply dead_fuel|]. intros H. cbn [ParseDeclarations]. cbn [In] in H.
  clean; repeat d_step; exact Logic.I.
Qed.
Lemma w_ParseDeclarations n : two (ParseDeclarations n) whatever.
Proof.
  induction n as [|n IH]; [apply two_fuel|]. cbn [ParseDeclarations].
  repeat (first [apply IH | apply d_ParseDeclarations; solve [in_list] | w_step | d_step]); try exact Logic.I.
Qed.

(** ** The whole compiler *)
Theorem compile_final s m r : compile s false = Err (Msg m) -> final_message m -> no_star r -> compile (s ++ r) false = Err (Msg m).
Proof.
  unfold compile, compile_from. intros H F NS.
  pose proof (w_ParseDeclarations (enough s) s NewCompiler r NS) as W.
  destruct (ParseDeclarations (enough s) _) as [a t|e|] eqn:E; try discriminate H. injection H as ->.
  specialize (W F).
  rewrite (fuel_le ParseDeclarations (enough s) (enough (s ++ r))).
  - rewrite W. reflexivity.
  - apply ParseDeclarations_mono.
  - unfold enough. rewrite app_length. lia.
  - rewrite W. discriminate.
Qed.
