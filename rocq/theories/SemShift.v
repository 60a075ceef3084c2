(** * SemShift: only the addresses of the literals of a function matter for its meaning *)
From Coq Require Import List Ascii String ZArith Bool Lia.
From Verif Require Import Base Lexer IR Builder Expr Syntax SpecSem Strings.
Import ListNotations.
Open Scope Z_scope.

Definition equal {W A} (x y : act W A) : Prop := forall m w, x m w = y m w.
Lemma equal_refl {W A} (x : act W A) : equal x x.
Proof. intros m w. auto. Qed.
Lemma equal_andthen {W A B} (x y : act W A) (f g : A -> act W B) : equal x y -> (forall a, equal (f a) (g a)) -> equal (andthen x f) (andthen y g).
Proof. intros H1 H2 m w. unfold andthen. rewrite (H1 m w). destruct (y m w); auto. apply H2. Qed.
Lemma lits_nonneg : (forall e, 0 <= lits e) /\ (forall l, 0 <= litsA l).
Proof. split; intros x; [rewrite <- (proj1 lits_texts)|rewrite <- (proj2 lits_texts)]; lia. Qed.
Lemma litsS_nonneg : (forall s, 0 <= litsS s) /\ (forall l, 0 <= litsL l).
Proof. split; intros x; [rewrite <- (proj1 lits_textsS)|rewrite <- (proj2 lits_textsS)]; lia. Qed.

Section Shift.
Context {W : Type}.
Variables H1 H2 : host W.
Variable locals : bool.
Variables lo hi off : Z.
Hypothesis PL : forall m n, h_place H1 m n = h_place H2 m n.
Hypothesis AD : forall x, h_addr H1 x = h_addr H2 x.
Hypothesis FU : forall a, h_fun H1 a = h_fun H2 a.
Hypothesis LI : forall k, lo <= k < hi -> h_lit H1 k = h_lit H2 (off + k).
Variables call call2 : string -> list Z -> act W Z.
Hypothesis CA : forall x args, equal (call x args) (call2 x args).
Lemma equal_call_at a args : equal (call_at H1 call a args) (call_at H2 call2 a args).
Proof. unfold call_at. rewrite FU. destruct (h_fun H2 a); [apply CA|apply equal_refl]. Qed.
Lemma equal_alloc n : equal (alloc_ H1 n) (alloc_ H2 n).
Proof. intros m w. unfold alloc_, alloc. rewrite PL. reflexivity. Qed.
Lemma equal_variable sc r x : variable (W := W) H1 sc r x = variable H2 sc r x.
Proof. unfold variable. rewrite AD. reflexivity. Qed.
Lemma equal_called sc r x : called (W := W) H1 locals sc r x = called H2 locals sc r x.
Proof. unfold called. rewrite equal_variable, AD. reflexivity. Qed.
Ltac pos := repeat match goal with
  | |- context [lits ?e] => match goal with K : 0 <= lits e |- _ => fail 1 | _ => pose proof (proj1 lits_nonneg e) end
  | |- context [litsA ?e] => match goal with K : 0 <= litsA e |- _ => fail 1 | _ => pose proof (proj2 lits_nonneg e) end
  | |- context [litsS ?e] => match goal with K : 0 <= litsS e |- _ => fail 1 | _ => pose proof (proj1 litsS_nonneg e) end
  | |- context [litsL ?e] => match goal with K : 0 <= litsL e |- _ => fail 1 | _ => pose proof (proj2 litsS_nonneg e) end
  | K : context [lits ?e] |- _ => match goal with K : 0 <= lits e |- _ => fail 1 | _ => pose proof (proj1 lits_nonneg e) end
  | K : context [litsA ?e] |- _ => match goal with K : 0 <= litsA e |- _ => fail 1 | _ => pose proof (proj2 lits_nonneg e) end
  | K : context [litsS ?e] |- _ => match goal with K : 0 <= litsS e |- _ => fail 1 | _ => pose proof (proj1 litsS_nonneg e) end
  | K : context [litsL ?e] |- _ => match goal with K : 0 <= litsL e |- _ => fail 1 | _ => pose proof (proj2 litsS_nonneg e) end
  end; lia.
Ltac go tac := repeat first [apply equal_andthen; [|intros ?] | apply equal_call_at | apply CA | apply equal_refl | tac
  | match goal with |- equal (match ?x with _ => _ end) _ => destruct x end
  | match goal with |- equal (let '(_, _) := ?x in _) _ => destruct x end ].
Section Env.
Variable sc : scope.
Variable r : env.
Definition shR e : Prop := forall k k', k' = off + k -> lo <= k -> k + lits e <= hi -> equal (rvalue H1 locals call sc r k e) (rvalue H2 locals call2 sc r k' e).
Definition shL e : Prop := forall k k', k' = off + k -> lo <= k -> k + lits e <= hi -> equal (lvalue H1 locals call sc r k e) (lvalue H2 locals call2 sc r k' e).
Definition shA l : Prop := forall k k', k' = off + k -> lo <= k -> k + litsA l <= hi -> equal (rvalues H1 locals call sc r k l) (rvalues H2 locals call2 sc r k' l).
Lemma call_or (H : host W) cl k f args : (exists x, f = ECallee x) \/
  rvalue H locals cl sc r k (ECall f args) = andthen (rvalue H locals cl sc r k f) (fun a => andthen (rvalues H locals cl sc r (k + lits f) args) (fun vs => call_at H cl a vs)).
Proof. destruct f; auto. left. eauto. Qed.
Lemma call_named (H : host W) cl k x args : rvalue H locals cl sc r k (ECall (ECallee x) args) =
  match called H locals sc r x with
  | Some p => andthen p (fun a => andthen (load_ a) (fun f => andthen (rvalues H locals cl sc r k args) (fun vs => call_at H cl f vs)))
  | None => andthen (rvalues H locals cl sc r k args) (fun vs => cl x vs)
  end.
Proof. reflexivity. Qed.
Lemma shift_expr : (forall e, shR e /\ shL e) /\ (forall l, shA l).
Proof.
  apply expr_exprs_ind; unfold shR, shL, shA; intros; repeat match goal with K : _ /\ _ |- _ => destruct K end; try (split; intros k k' EK G1 G2); cbn [lvalue rvalues];
    try match goal with |- equal (rvalue _ _ _ _ _ _ (ECall _ _)) _ => idtac | _ => cbn [rvalue]; cbn [lits litsA] in * end; rewrite ?equal_variable;
    try match goal with |- equal (rvalue _ _ _ _ _ _ (ECall _ _)) _ => idtac | _ => go ltac:(solve [match goal with K : forall k k', k' = off + k -> _ |- _ => apply K; pos end]) end.
  - subst. rewrite LI by lia. apply equal_refl.
  - rewrite AD. apply equal_refl.
  - cbn [lits] in G2. destruct (call_or H1 call k f args) as [[x ->]|E1].
    + rewrite !call_named, equal_called. cbn [lits] in *. go ltac:(solve [match goal with K : forall k k', k' = off + k -> _ |- _ => apply K; pos end]).
    + destruct (call_or H2 call2 k' f args) as [[x ->]|E2]; [rewrite !call_named, equal_called; cbn [lits] in *; go ltac:(solve [match goal with K : forall k k', k' = off + k -> _ |- _ => apply K; pos end])|].
      rewrite E1, E2. go ltac:(solve [match goal with K : forall k k', k' = off + k -> _ |- _ => apply K; pos end]).
Qed.
End Env.
Lemma shift_R sc r k k' e : k' = off + k -> lo <= k -> k + lits e <= hi -> equal (rvalue H1 locals call sc r k e) (rvalue H2 locals call2 sc r k' e).
Proof. apply (proj1 (shift_expr sc r)). Qed.
Variable fuel : nat.
Lemma shift_loop t1 t2 b1 b2 : (forall r, equal (t1 r) (t2 r)) -> (forall r, equal (b1 r) (b2 r)) ->
  forall n r, equal (loop n t1 b1 r) (loop (W := W) n t2 b2 r).
Proof.
  intros HT HB. induction n as [|n IH]; intros r; [apply equal_refl|]. cbn [loop].
  apply equal_andthen; [apply HT|]. intros v. destruct (v =? 0); [apply equal_refl|]. apply equal_andthen; [apply HB|]. intros [f r'].
  destruct f; try apply equal_refl. apply IH.
Qed.
Lemma shift_automatics l : forall r, equal (automatics H1 l r) (automatics H2 l r).
Proof.
  induction l as [|[x n] l IH]; intros r; cbn [automatics]; [apply equal_refl|]. apply equal_andthen; [|intros; apply IH].
  unfold automatic. go ltac:(apply equal_alloc).
Qed.
Lemma shift_stmt : (forall s sc k k' t r, k' = off + k -> lo <= k -> k + litsS s <= hi -> equal (exec H1 locals call fuel sc k s t r) (exec H2 locals call2 fuel sc k' s t r)) /\
  (forall l sc k k' t r, k' = off + k -> lo <= k -> k + litsL l <= hi -> equal (execL H1 locals call fuel sc k l t r) (execL H2 locals call2 fuel sc k' l t r)).
Proof.
  apply stmt_stmts_ind; intros; cbn [exec execL]; cbv zeta; cbn [litsS litsL] in *;
    repeat first [apply equal_andthen; [|intros ?] | solve [apply shift_R; pos] | apply shift_automatics | apply equal_refl
      | solve [match goal with K : forall sc k k' t r, k' = off + k -> _ |- _ => apply K; pos end]
      | apply shift_loop; [intros; apply shift_R; pos|intros; match goal with K : forall sc k k' t r, k' = off + k -> _ |- _ => apply K; pos end]
      | match goal with |- equal (match ?x with _ => _ end) _ => destruct x end
      | match goal with |- equal (let '(_, _) := ?x in _) _ => destruct x end ].
Qed.
Lemma shift_run sc k k' body : k' = off + k -> lo <= k -> k + litsS body <= hi -> forall n t r,
  equal (run H1 locals call fuel n sc k body t r) (run H2 locals call2 fuel n sc k' body t r).
Proof.
  intros G1 G2 G3. induction n as [|n IH]; intros t r; [apply equal_refl|]. cbn [run].
  apply equal_andthen; [apply shift_stmt; auto|]. intros [f r']. destruct f; try apply equal_refl. apply IH.
Qed.
Lemma shift_parameters ps : forall args r, equal (parameters H1 ps args r) (parameters H2 ps args r).
Proof.
  induction ps as [|p ps IH]; intros args r; cbn [parameters]; [apply equal_refl|]. destruct args as [|z args]; [apply equal_refl|].
  go ltac:(first [apply equal_alloc|apply IH]).
Qed.
Theorem shift_invoke n ps body k k' args : k' = off + k -> lo <= k -> k + litsS body <= hi ->
  equal (invoke H1 locals call fuel n ps body k args) (invoke H2 locals call2 fuel n ps body k' args).
Proof.
  intros G1 G2 G3 m w. unfold invoke.
  rewrite (equal_andthen (parameters H1 ps args (fun _ => None)) (parameters H2 ps args (fun _ => None))
    (fun r => run H1 locals call fuel n (mkScope (rev ps) []) k body None r)
    (fun r => run H2 locals call2 fuel n (mkScope (rev ps) []) k' body None r)); auto.
  - apply shift_parameters.
  - intros r. apply shift_run; auto.
Qed.
End Shift.
