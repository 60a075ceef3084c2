(** * FinalP: the comparison of Final.v for the functions of the parser *)
From Coq Require Import List Ascii String ZArith NArith Lia Bool.
From Verif Require Import Base Lexer IR Builder Expr Stmt Decl Totality FuelMono SpecDiag DiagFacts Final.
Import ListNotations.
Open Scope Z_scope.
Open Scope m_scope.
Open Scope list_scope.

Lemma d_quiet {A} i (m : C A) : quiet m -> dead i m (fun _ j => j = i).
Proof. intros H. apply dead_quiet; auto. Qed.
(** After an expression of level [l]. *)
Definition EL (l : nat) {A} (a : A) (i : list ascii) : Prop :=
  i = [] \/ i = equal \/ ((l < 4)%nat /\ In i [plus; minus]).

Ltac in_list := cbn [In]; repeat first [left; reflexivity | right].
Ltac clean :=
  cbv beta in *;
  repeat match goal with
  | H : never _ _ |- _ => destruct H
  | H : late _ _ _ |- _ => unfold late in H; cbn [In] in H
  | H : EL _ _ _ |- _ => unfold EL in H; cbn [In] in H
  | H : _ /\ _ |- _ => destruct H
  | H : _ \/ _ |- _ => destruct H
  | H : False |- _ => destruct H
  | H : ?x = _ |- _ => is_var x; subst x
  | H : _ = ?x |- _ => is_var x; subst x
  | H : (_ && _)%bool = true |- _ => apply andb_prop in H
  | H : Ascii.eqb ?x _ = true |- _ => is_var x; apply Ascii.eqb_eq in H; subst x
  | H : (?a < ?b)%nat |- _ => first [exfalso; clear - H; lia | fail 1]
  end.
Ltac qdone := first [solve [in_list] | unfold EL; first [left; reflexivity | right; left; reflexivity | right; right; split; [lia|solve [in_list]]]].
Ltac d_if b :=
  lazymatch b with
  | (?x && ?y)%bool => let v := eval vm_compute in y in
      lazymatch v with
      | false => change y with false; rewrite (andb_false_r x); cbv beta match
      | true => change y with true; rewrite (andb_true_r x); destruct x eqn:?; cbv beta match
      | _ => destruct b eqn:?; cbv beta match
      end
  | _ => let v := eval vm_compute in b in
      lazymatch v with
      | true => change b with true; cbv beta match
      | false => change b with false; cbv beta match
      | _ => destruct b eqn:?; cbv beta match
      end
  end.
Ltac d_rec := fail.
Ltac d_prim :=
  lazymatch goal with
  | |- dead _ (lift Whitespace) _ => apply d_ws; solve [in_list]
  | |- dead [] (lift Identifier) _ => apply d_ident_nil
  | |- dead ?i (lift Identifier) _ => apply d_ident_e; solve [in_list]
  | |- dead [] (lift Number) _ => apply d_number_nil
  | |- dead [] (lift (ExpectChar _ _)) _ => apply d_expect_nil; cbn; tauto
  | |- dead _ (lift (ExpectChar _ _)) _ => apply d_expect_eq; [cbn; tauto|reflexivity]
  | |- dead [] rc _ => apply d_rc_nil
  | |- dead ?i rc _ => let j := eval hnf in i in change i with j; apply d_rc_cons
  | |- dead [] readChar _ => apply d_readChar_nil
  | |- dead ?i readChar _ => let j := eval hnf in i in change i with j; apply d_readChar_cons
  | |- dead _ (unread _) _ => apply d_unread
  | |- dead _ (unreadOk (inr ?x)) _ => apply (d_unread x)
  | |- dead _ (unreadOk (inl _)) _ => apply d_quiet; exact (q_ret tt)
  | |- dead _ (identOr _) _ => apply d_identOr; nofin
  | |- dead [] (liftOr _ Number) _ => apply d_liftOr_nil; nofin
  | |- dead _ (externName _) _ => apply d_externName
  | |- _ => apply d_quiet; is_quiet
  end.
Ltac d_step :=
  lazymatch goal with
  | |- dead _ (ret _) _ => apply dead_ret; try qdone
  | |- dead _ (errorf _) _ => apply dead_errorf; cbn [runeOf]; nofin
  | |- dead _ (fail _) _ => apply dead_fail; nofin
  | |- dead _ out_of_fuel _ => apply dead_fuel
  | |- dead _ (let _ := _ in _) _ => cbv zeta
  | |- dead _ (bind (bind _ _) _) _ => apply dead_assoc
  | |- dead _ (bind (if ?b then _ else _) _) _ => d_if b
  | |- dead _ (bind (match ?x with _ => _ end) _) _ => destruct x
  | |- dead _ (bind _ _) _ => eapply dead_bind; [first [d_rec | d_prim]|intros; clean; cbv beta match]
  | |- dead _ (if ?b then _ else _) _ => d_if b
  | |- dead _ (match ?x with _ => _ end) _ => destruct x
  | |- _ => eapply dead_weak; [first [d_rec | d_prim]|intros; clean; qdone]
  end.
Ltac w_rec := fail.
Ltac w_prim :=
  lazymatch goal with
  | |- two rc _ => apply two_rc
  | |- two readChar _ => apply two_readChar
  | |- two (unread _) _ => apply two_unread
  | |- two (unreadOk _) _ => apply two_unreadOk
  | |- two (unreadAll _) _ => apply two_unreadAll
  | |- two (lift Whitespace) _ => apply two_ws
  | |- two (lift Identifier) _ => apply two_ident
  | |- two (lift Number) _ => apply two_number
  | |- two (lift Character) _ => apply two_lift, twol_Character
  | |- two (lift String_) _ => apply two_lift, twol_String
  | |- two (lift (ExpectChar _ _)) _ => apply two_lift, twol_ExpectChar; cbn; tauto
  | |- two (identOr _) _ => apply two_identOr; nofin
  | |- two (liftOr _ Number) _ => apply two_liftOr_number; nofin
  | |- two (liftOr _ Character) _ => apply two_liftOr_never; [nofin|apply twol_Character]
  | |- _ => apply (two_indep _ never); is_indep
  end.
Ltac w_step :=
  lazymatch goal with
  | |- two (ret _) _ => apply two_ret
  | |- two (errorf _) _ => apply two_errorf
  | |- two (fail _) _ => apply two_fail
  | |- two out_of_fuel _ => apply two_fuel
  | |- two (let _ := _ in _) _ => cbv zeta
  | |- two (bind (bind _ _) _) _ => apply two_assoc
  | |- two (bind (if ?b then _ else _) _) _ => destruct b eqn:?
  | |- two (bind (match ?x with _ => _ end) _) _ => destruct x
  | |- two (bind _ _) _ => eapply two_bind; [first [w_rec | w_prim]|intros ?|intros; clean; cbv beta match]
  | |- two (if ?b then _ else _) _ => destruct b eqn:?
  | |- two (match ?x with _ => _ end) _ => destruct x
  | |- two _ _ => eapply two_weak; [first [w_rec | w_prim]|intros; clean; qdone]
  end.
Ltac both := repeat first [w_step | d_step].

Lemma w_tryEqEq : two tryEqEq (late [[]]).
Proof.
  unfold tryEqEq. both.
Qed.
Lemma w_tryEqEqEq x : two (tryEqEqEq x) (fun a j => a = false /\ x = inr "="%char /\ j = equal).
Proof.
  unfold tryEqEqEq. both; (split; [reflexivity|split; [|reflexivity]]);
  (destruct x as [|y]; [discriminate|]; cbn [isCh] in *; clean; reflexivity).
Qed.
Lemma w_compoundOp x : two (compoundOp x) (late [[]; bang]).
Proof.
  unfold compoundOp. both.
  all: repeat match goal with H : Ascii.eqb ?a _ = true |- _ => apply Ascii.eqb_eq in H; subst a end; qdone.
Qed.

(** A name that is not declared is taken as a function: the last error of
    [primaryIdent] is never given. *)
Definition named_or (e : string) (name : string) : C (value * bool) :=
  a <- GetAddress name ;;
  match a with
  | Some addr => ret (addr, true)
  | None =>
      lift Whitespace ;;;
      r2 <- rc ;;
      unreadOk r2 ;;;
      if isCh r2 "=" then errorf ("undefined identifier '" ++ name ++ "'")
      else
        c <- get ;;
        match findFuncByName c name with
        | Some f =>
            v <- emitR (fun r => IPtrToInt r (fun_value f)) ;;
            ret (v, false)
        | None =>
            o <- GetOrDeclareFunction name ;;
            match o with
            | Some fn =>
                v <- emitR (fun r => IPtrToInt r fn) ;;
                ret (v, false)
            | None => errorf e
            end
        end
  end.
Lemma named_or_any e e' x s : named_or e x s = named_or e' x s.
Proof.
  unfold named_or, GetAddress, bind, get, ret.
  destruct (assoc x (c_locals (cs s))); [reflexivity|].
  destruct (assoc x (c_globals (cs s))) as [[? []]|] eqn:EG; [reflexivity|reflexivity|].
  unfold rc, lift at 1 3. destruct (Whitespace (lx s)) as [[] l|er|]; [|reflexivity|reflexivity].
  unfold lift. cbn [lx cs]. destruct (tryRead l) as [r2 l2|er|]; [|reflexivity|reflexivity].
  assert (H : exists l3, unreadOk r2 (mkSt l2 (cs s)) = Ok tt (mkSt l3 (cs s))) by (destruct r2; eexists; reflexivity).
  destruct H as (l3 & ->). destruct (isCh r2 "="); [reflexivity|].
  cbn [cs]. destruct (findFuncByName (cs s) x); [reflexivity|].
  unfold GetOrDeclareFunction, bind, get, ret. cbn [cs]. destruct (assoc x (c_functions (cs s))); [reflexivity|]. rewrite EG. reflexivity.
Qed.
Lemma two_same {A} (m m' : C A) Q : (forall s, m s = m' s) -> two m' Q -> two m Q.
Proof. intros E H i c r NS. rewrite !E. apply H, NS. Qed.
Lemma dead_same {A} i (m m' : C A) Q : (forall s, m s = m' s) -> dead i m' Q -> dead i m Q.
Proof. intros E H c. rewrite !E. apply H. Qed.
Lemma w_named x : two (named_or ("undefined identifier '" ++ x ++ "'") x) (late [[]]).
Proof. apply (two_same _ (named_or "" x)); [intros; apply named_or_any|]. unfold named_or. both. Qed.
Lemma d_named x i : In i [[]] -> dead i (named_or ("undefined identifier '" ++ x ++ "'") x) (late [[]]).
Proof.
  intros H. apply (dead_same _ _ (named_or "" x)); [intros; apply named_or_any|]. cbn [In] in H. clean; unfold named_or; both.
Qed.
Ltac d_top :=
  lazymatch goal with
  | |- dead _ (bind (GetAddress ?x) _) _ => apply (d_named x); solve [in_list]
  | |- two (bind (GetAddress ?x) _) _ => apply (w_named x)
  end.
Lemma w_primaryIdent x : two (primaryIdent x) (late [[]]).
Proof. unfold primaryIdent. repeat first [d_top | w_step | d_step]. Qed.
Lemma dead_primaryIdent i x : In i [[]] -> dead i (primaryIdent x) (late [[]]).
Proof. intros H. cbn [In] in H. unfold primaryIdent. clean; repeat first [d_top | d_step]. Qed.

Lemma d_tryEqEq : dead [] tryEqEq (fun a j => a = false /\ j = []).
Proof. intros c. exists [], c. auto. Qed.
Lemma d_tryEqEqEq e : dead [] (tryEqEqEq (inl e)) (fun a j => a = false /\ j = []).
Proof. intros c. exists [], c. auto. Qed.
Lemma d_compoundOp e : dead [] (compoundOp (inl e)) (fun a j => a = None /\ j = []).
Proof. intros c. exists [], c. auto. Qed.
Lemma d_compoundOp_eq : dead equal (compoundOp (inr "="%char)) (fun a j => a = None /\ j = equal2).
Proof. intros c. exists equal2, c. auto. Qed.

Definition DE (n : nat) : Prop :=
  (forall l i, In i [[]; equal; equal2; bang] -> dead i (exprL n l) never) /\
  (forall l v b i, In i [[]; equal; plus; minus] -> dead i (exprLoop n l v b) (EL l)) /\
  (forall i, In i [[]; equal; equal2; bang] -> dead i (unary n) never) /\
  (forall i, In i [equal; equal2] -> dead i (postfix n) never) /\
  (forall v b i, In i [[]] -> dead i (postfixLoop n v b) (late [[]])) /\
  (forall i, In i [equal; equal2] -> dead i (primary n) never).
Ltac d_rec ::=
  lazymatch goal with
  | |- dead _ tryEqEq _ => apply d_tryEqEq
  | |- dead _ (tryEqEqEq _) _ => apply d_tryEqEqEq
  | |- dead _ (compoundOp _) _ => first [apply d_compoundOp | apply d_compoundOp_eq]
  | |- dead _ (exprL _ _) _ => match goal with H : forall l i, In i _ -> dead i (exprL _ l) _ |- _ => apply H; solve [in_list] end
  | |- dead _ (exprLoop _ _ _ _) _ => match goal with H : forall l v b i, In i _ -> dead i (exprLoop _ l v b) _ |- _ => apply H; solve [in_list] end
  | |- dead _ (unary _) _ => match goal with H : forall i, In i _ -> dead i (unary _) _ |- _ => apply H; solve [in_list] end
  | |- dead _ (postfix _) _ => match goal with H : forall i, In i _ -> dead i (postfix _) _ |- _ => apply H; solve [in_list] end
  | |- dead _ (postfixLoop _ _ _) _ => match goal with H : forall v b i, In i _ -> dead i (postfixLoop _ v b) _ |- _ => apply H; solve [in_list] end
  | |- dead _ (primary _) _ => match goal with H : forall i, In i _ -> dead i (primary _) _ |- _ => apply H; solve [in_list] end
  | |- dead _ (primaryIdent _) _ => apply dead_primaryIdent; solve [in_list]
  end.
Lemma dead_expr n : DE n.
Proof.
  induction n as [|n (IH1 & IH2 & IH3 & IH4 & IH5 & IH6)];
    [unfold DE; split; [|split; [|split; [|split; [|split]]]]; intros; apply dead_fuel|].
  split; [|split; [|split; [|split; [|split]]]].
  - intros l i H. cbn [exprL]. cbn [In] in H. clean; repeat d_step.
  - intros l v b i H. cbn [exprLoop]. cbn [In] in H. clean; repeat d_step.
  - intros i H. cbn [unary]. cbn [In] in H. clean; repeat d_step.
  - intros i H. cbn [postfix]. cbn [In] in H. clean; repeat d_step.
  - intros v b i H. cbn [postfixLoop]. cbn [In] in H. clean; repeat d_step.
  - intros i H. cbn [primary]. cbn [In] in H. clean; repeat d_step.
Qed.

Definition WE (n : nat) : Prop :=
  (forall l, two (exprL n l) (EL l)) /\ (forall l v b, two (exprLoop n l v b) (EL l)) /\ two (unary n) (late [[]; plus; minus]) /\
  two (postfix n) (late [[]; plus; minus]) /\ (forall v b, two (postfixLoop n v b) (late [[]; plus; minus])) /\
  (forall a, two (callArgs n a) never) /\ two (primary n) (late [[]]).
Ltac w_rec ::=
  lazymatch goal with
  | |- two tryEqEq _ => apply w_tryEqEq
  | |- two (tryEqEqEq _) _ => apply w_tryEqEqEq
  | |- two (compoundOp _) _ => apply w_compoundOp
  | |- two (primaryIdent _) _ => apply w_primaryIdent
  | |- two (exprL _ _) _ => match goal with H : forall l, two (exprL _ l) _ |- _ => apply H end
  | |- two (exprLoop _ _ _ _) _ => match goal with H : forall l v b, two (exprLoop _ l v b) _ |- _ => apply H end
  | |- two (postfixLoop _ _ _) _ => match goal with H : forall v b, two (postfixLoop _ v b) _ |- _ => apply H end
  | |- two (callArgs _ _) _ => match goal with H : forall a, two (callArgs _ a) _ |- _ => apply H end
  | |- two (unary _) _ => eassumption
  | |- two (postfix _) _ => eassumption
  | |- two (primary _) _ => eassumption
  end.
Lemma two_expr n : WE n.
Proof.
  induction n as [|n (IH1 & IH2 & IH3 & IH4 & IH5 & IH6 & IH7)];
    [unfold WE; split; [|split; [|split; [|split; [|split; [|split]]]]]; intros; apply two_fuel|].
  destruct (dead_expr n) as (D1 & D2 & D3 & D4 & D5 & D6).
  split; [|split; [|split; [|split; [|split; [|split]]]]].
  - intros l. cbn [exprL]. both.
  - intros l v b. cbn [exprLoop]. both.
  - cbn [unary]. both.
  - cbn [postfix]. both.
  - intros v b. cbn [postfixLoop]. both.
    all: match goal with H : (_ || _)%bool = true |- _ => apply orb_prop in H as [H|H]; apply Ascii.eqb_eq in H; subst; qdone end.
  - intros a. cbn [callArgs]. both.
  - cbn [primary]. both.
Qed.
