(** * FuelMono: more fuel never changes a result *)
From Coq Require Import List Ascii String ZArith NArith Lia Bool.
From Verif Require Import Base Lexer IR Builder Expr Stmt Decl.
Import ListNotations.
Open Scope Z_scope.
Open Scope m_scope.

(** [m'] gives the result of [m] unless [m] runs out of fuel. *)
Definition below {A} (m m' : C A) : Prop := forall s, m s = Fuel \/ m' s = m s.

Lemma below_refl {A} (m : C A) : below m m.
Proof. intros s. auto. Qed.

Lemma below_fuel {A} (m : C A) : below out_of_fuel m.
Proof. intros s. left. reflexivity. Qed.

Lemma below_bind {A B} (m m' : C A) (f f' : A -> C B) :
  below m m' -> (forall a, below (f a) (f' a)) -> below (bind m f) (bind m' f').
Proof.
  intros H1 H2 s. unfold bind. destruct (H1 s) as [->| ->]; auto.
  destruct (m s) as [a s1| |]; auto. apply H2.
Qed.

Ltac mono :=
  repeat first
    [ assumption
    | apply below_refl
    | match goal with H : forall _, _ |- below _ _ => solve [apply H] end
    | apply below_bind; [|intros ?]
    | match goal with
      | |- below (if ?b then _ else _) (if ?b then _ else _) => destruct b
      | |- below (match ?p with _ => _ end) (match ?p with _ => _ end) => destruct p
      end ].

Theorem expr_mono n :
  (forall lv, below (exprL n lv) (exprL (S n) lv)) /\
  (forall lv v b, below (exprLoop n lv v b) (exprLoop (S n) lv v b)) /\
  below (unary n) (unary (S n)) /\
  below (postfix n) (postfix (S n)) /\
  (forall v b, below (postfixLoop n v b) (postfixLoop (S n) v b)) /\
  (forall acc, below (callArgs n acc) (callArgs (S n) acc)) /\
  below (primary n) (primary (S n)).
Proof.
  induction n as [|n (IHe & IHl & IHu & IHp & IHpl & IHa & IHpr)].
  { repeat split; intros; apply below_fuel. }
  repeat apply conj; intros.
  - change (below (' (lhs, isL) <- unary n ;; exprLoop n lv lhs isL)
                  (' (lhs, isL) <- unary (S n) ;; exprLoop (S n) lv lhs isL)). mono.
  - remember (S n) as n1 eqn:E. rewrite E at 1. cbn [exprLoop]. mono.
  - remember (S n) as n1 eqn:E. rewrite E at 1. cbn [unary]. mono.
  - change (below (' (v, isL) <- primary n ;; postfixLoop n v isL)
                  (' (v, isL) <- primary (S n) ;; postfixLoop (S n) v isL)). mono.
  - remember (S n) as n1 eqn:E. rewrite E at 1. cbn [postfixLoop]. mono.
  - remember (S n) as n1 eqn:E. rewrite E at 1. cbn [callArgs]. mono.
  - remember (S n) as n1 eqn:E. rewrite E at 1. cbn [primary]. mono.
Qed.

Lemma parseExpression_mono n : below (parseExpression n) (parseExpression (S n)).
Proof. apply (expr_mono n). Qed.

Lemma parseReturn_mono n : below (parseReturn n) (parseReturn (S n)).
Proof. unfold parseReturn. pose proof (parseExpression_mono n). mono. Qed.

Lemma autoLoop_mono n : forall seen decls, below (autoLoop n seen decls) (autoLoop (S n) seen decls).
Proof.
  induction n as [|n IH]; intros; [apply below_fuel|].
  remember (S n) as n1 eqn:E. rewrite E at 1. cbn [autoLoop]. mono.
Qed.

Lemma parseAuto_mono n : below (parseAuto n) (parseAuto (S n)).
Proof. unfold parseAuto. pose proof (autoLoop_mono n). mono. Qed.

Lemma parseExtrn_mono n : below (parseExtrn n) (parseExtrn (S n)).
Proof.
  induction n as [|n IH]; intros; [apply below_fuel|].
  remember (S n) as n1 eqn:E. rewrite E at 1. cbn [parseExtrn]. mono.
Qed.

Theorem stmt_mono n :
  (forall sw, below (statement n sw) (statement (S n) sw)) /\
  (forall sw, below (blockLoop n sw) (blockLoop (S n) sw)) /\
  (forall sw, below (keyword n sw) (keyword (S n) sw)) /\
  below (parseIf n) (parseIf (S n)) /\
  below (parseWhile n) (parseWhile (S n)) /\
  below (parseSwitch n) (parseSwitch (S n)) /\
  (forall sw, below (parseCase n sw) (parseCase (S n) sw)).
Proof.
  induction n as [|n (IHs & IHb & IHk & IHi & IHw & IHsw & IHc)].
  { repeat split; intros; apply below_fuel. }
  pose proof (parseExpression_mono n). pose proof (parseReturn_mono n).
  pose proof (parseAuto_mono n). pose proof (parseExtrn_mono n).
  repeat apply conj; intros; remember (S n) as n1 eqn:E; rewrite E at 1.
  - cbn [statement]. mono.
  - cbn [blockLoop]. mono.
  - cbn [keyword]. mono.
  - cbn [parseIf]. mono.
  - cbn [parseWhile]. mono.
  - cbn [parseSwitch]. mono.
  - cbn [parseCase]. mono.
Qed.

Lemma ivalLoop_mono n : forall acc, below (ivalLoop n acc) (ivalLoop (S n) acc).
Proof.
  induction n as [|n IH]; intros; [apply below_fuel|].
  remember (S n) as n1 eqn:E. rewrite E at 1. cbn [ivalLoop]. mono.
Qed.

Lemma parseArguments_mono n : forall acc, below (parseArguments n acc) (parseArguments (S n) acc).
Proof.
  induction n as [|n IH]; intros; [apply below_fuel|].
  remember (S n) as n1 eqn:E. rewrite E at 1. cbn [parseArguments]. mono.
Qed.

Lemma declaration_mono n name : below (declaration n name) (declaration (S n) name).
Proof.
  pose proof (ivalLoop_mono n). pose proof (parseArguments_mono n). pose proof (proj1 (stmt_mono n)).
  unfold declaration, parseFunction, parseVector, parseGlobal. mono.
Qed.

Lemma ParseDeclarations_mono n : below (ParseDeclarations n) (ParseDeclarations (S n)).
Proof.
  induction n as [|n IH]; intros; [apply below_fuel|].
  pose proof (declaration_mono n).
  remember (S n) as n1 eqn:E. rewrite E at 1. cbn [ParseDeclarations]. mono.
Qed.

Lemma below_trans {A} (a b c : C A) : below a b -> below b c -> below a c.
Proof.
  intros H1 H2 s. destruct (H1 s) as [H|H]; auto. destruct (H2 s) as [G|G].
  - left. congruence.
  - right. congruence.
Qed.

Lemma mono_le {A} (f : nat -> C A) : (forall n, below (f n) (f (S n))) ->
  forall n m, (n <= m)%nat -> below (f n) (f m).
Proof.
  intros H n m L. induction L; [apply below_refl|]. eapply below_trans; eauto.
Qed.

(** More fuel, same result. *)
Lemma fuel_le {A} (f : nat -> C A) n m s : (forall n, below (f n) (f (S n))) ->
  (n <= m)%nat -> f n s <> Fuel -> f m s = f n s.
Proof. intros H L N. destruct (mono_le f H n m L s); auto. contradiction. Qed.
