(** * SemMono: the bound of the reference semantics does not matter *)
From Coq Require Import List Ascii String ZArith Bool Lia.
From Verif Require Import Base Lexer IR Builder Expr Syntax SpecSem.
Import ListNotations.
Open Scope Z_scope.

(** [y] does what [x] does, unless [x] reaches the bound. *)
Definition below {W A} (x y : act W A) : Prop := forall m w, x m w = Limit \/ y m w = x m w.
Lemma below_refl {W A} (x : act W A) : below x x.
Proof. intros m w. auto. Qed.
Lemma below_limit {W A} (x : act W A) : below limit x.
Proof. intros m w. left. reflexivity. Qed.
Lemma below_trans {W A} (x y z : act W A) : below x y -> below y z -> below x z.
Proof. intros H1 H2 m w. destruct (H1 m w) as [E|E]; auto. destruct (H2 m w) as [E2|E2]; [left; congruence|right; congruence]. Qed.
Lemma below_andthen {W A B} (x y : act W A) (f g : A -> act W B) : below x y -> (forall a, below (f a) (g a)) -> below (andthen x f) (andthen y g).
Proof.
  intros H1 H2 m w. unfold andthen. destruct (H1 m w) as [E|E]; rewrite E; auto. destruct (x m w); auto. apply H2.
Qed.

Section Mono.
Context {W : Type}.
Variable H : host W.
Variable locals : bool.
Section Call.
Variables c1 c2 : string -> list Z -> act W Z.
Hypothesis C : forall x args, below (c1 x args) (c2 x args).
Lemma below_call_at a args : below (call_at H c1 a args) (call_at H c2 a args).
Proof. unfold call_at. destruct (h_fun H a); auto using below_refl. Qed.
Ltac bl := repeat first [apply below_andthen; [|intros ?] | apply below_call_at | apply C | apply below_refl | solve [auto]
  | match goal with |- below (match ?x with _ => _ end) _ => destruct x end
  | match goal with |- below (let '(_, _) := ?x in _) _ => destruct x end ].
Section Env.
Variable sc : scope.
Variable r : env.
Definition monoR e : Prop := forall k, below (rvalue H locals c1 sc r k e) (rvalue H locals c2 sc r k e).
Definition monoL e : Prop := forall k, below (lvalue H locals c1 sc r k e) (lvalue H locals c2 sc r k e).
Lemma call_or k f args : (exists x, f = ECallee x) \/ forall c,
  rvalue H locals c sc r k (ECall f args) = andthen (rvalue H locals c sc r k f) (fun a => andthen (rvalues H locals c sc r (k + lits f) args) (fun vs => call_at H c a vs)).
Proof. destruct f; auto. left. eauto. Qed.
Lemma mono_expr : (forall e, monoR e /\ monoL e) /\ (forall l k, below (rvalues H locals c1 sc r k l) (rvalues H locals c2 sc r k l)).
Proof.
  apply expr_exprs_ind; unfold monoR, monoL; intros; repeat match goal with K : _ /\ _ |- _ => destruct K end; try (split; intros k); cbn [lvalue rvalues];
    try match goal with |- below (rvalue _ _ _ _ _ _ (ECall _ _)) _ => idtac | _ => cbn [rvalue]; bl end.
  destruct (call_or k f args) as [[x ->]|E1].
  - change (below (match called H locals sc r x with
      | Some p => andthen p (fun a => andthen (load_ a) (fun f => andthen (rvalues H locals c1 sc r k args) (fun vs => call_at H c1 f vs)))
      | None => andthen (rvalues H locals c1 sc r k args) (fun vs => c1 x vs) end)
      (match called H locals sc r x with
      | Some p => andthen p (fun a => andthen (load_ a) (fun f => andthen (rvalues H locals c2 sc r k args) (fun vs => call_at H c2 f vs)))
      | None => andthen (rvalues H locals c2 sc r k args) (fun vs => c2 x vs) end)). bl.
  - rewrite !E1. bl.
Qed.
End Env.
Section Fuel.
Variables n1 n2 : nat.
Hypothesis LE : (n1 <= n2)%nat.
Lemma mono_loop t1 t2 b1 b2 : (forall r, below (t1 r) (t2 r)) -> (forall r, below (b1 r) (b2 r)) ->
  forall n n', (n <= n')%nat -> forall r, below (loop n t1 b1 r) (loop (W := W) n' t2 b2 r).
Proof.
  intros HT HB. induction n as [|n IH]; intros n' L r; [apply below_limit|]. destruct n' as [|n']; [lia|]. cbn [loop].
  apply below_andthen; [apply HT|]. intros v. destruct (v =? 0); [apply below_refl|]. apply below_andthen; [apply HB|]. intros [f r'].
  destruct f; try apply below_refl. apply IH. lia.
Qed.
Lemma mono_R sc r k e : below (rvalue H locals c1 sc r k e) (rvalue H locals c2 sc r k e).
Proof. apply (proj1 (mono_expr sc r)). Qed.
Lemma mono_stmt : (forall s sc k t r, below (exec H locals c1 n1 sc k s t r) (exec H locals c2 n2 sc k s t r)) /\
  (forall l sc k t r, below (execL H locals c1 n1 sc k l t r) (execL H locals c2 n2 sc k l t r)).
Proof.
  apply stmt_stmts_ind; intros; cbn [exec execL]; cbv zeta;
    repeat first [apply below_andthen; [|intros ?] | apply mono_R | apply below_refl | solve [auto]
      | apply mono_loop; [intros; apply mono_R|auto|exact LE]
      | match goal with |- below (match ?x with _ => _ end) _ => destruct x end
      | match goal with |- below (let '(_, _) := ?x in _) _ => destruct x end ].
Qed.
Lemma mono_run sc k body : forall n n', (n <= n')%nat -> forall t r, below (run H locals c1 n1 n sc k body t r) (run H locals c2 n2 n' sc k body t r).
Proof.
  induction n as [|n IH]; intros n' L t r; [apply below_limit|]. destruct n' as [|n']; [lia|]. cbn [run].
  apply below_andthen; [apply mono_stmt|]. intros [f r']. destruct f; try apply below_refl. apply IH. lia.
Qed.
Lemma mono_invoke n n' ps body k args : (n <= n')%nat -> below (invoke H locals c1 n1 n ps body k args) (invoke H locals c2 n2 n' ps body k args).
Proof.
  intros L m w. unfold invoke.
  destruct (below_andthen (parameters H ps args (fun _ => None)) _ (fun r => run H locals c1 n1 n (mkScope (rev ps) []) k body None r)
    (fun r => run H locals c2 n2 n' (mkScope (rev ps) []) k body None r) (below_refl _) (fun r => mono_run _ _ _ _ _ L _ _) m w) as [E|E]; rewrite E; auto.
Qed.
End Fuel.
End Call.
(** A larger bound gives the same result. *)
Theorem mono_calls ds : forall n n', (n <= n')%nat -> forall x args, below (calls H locals ds n x args) (calls H locals ds n' x args).
Proof.
  induction n as [|n IH]; intros n' L x args; [apply below_limit|]. destruct n' as [|n']; [lia|]. cbn [calls].
  destruct (defined 0 ds x None) as [[[ps body] k]|]; [|apply below_refl]. apply mono_invoke; try lia. apply IH. lia.
Qed.
End Mono.
