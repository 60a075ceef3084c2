(** * CalmFacts: programs without loops, jumps and recursion end *)
From Coq Require Import List Ascii String ZArith Bool Lia.
From Verif Require Import Base IR Expr Syntax SpecSem SemShift SpecCalm.
Import ListNotations.
Open Scope Z_scope.

(** No bound is reached, and results satisfy [Q]. *)
Definition ends {W A} (x : act W A) (Q : A -> Prop) : Prop := forall m w,
  match x m w with Val a _ _ => Q a | Limit => False | _ => True end.
Definition any {A} (a : A) : Prop := True.
Section Calm.
Context {W : Type}.
Variable H : host W.
Variable locals : bool.
Lemma e_done {A} (a : A) (Q : A -> Prop) : Q a -> @ends W A (done a) Q.
Proof. intros K m w. exact K. Qed.
Lemma e_stuck {A} (Q : A -> Prop) : @ends W A stuck Q.
Proof. intros m w. exact I. Qed.
Lemma e_then {A B} (x : act W A) (f : A -> act W B) P Q : ends x P -> (forall a, P a -> ends (f a) Q) -> ends (andthen x f) Q.
Proof. intros X F m w. unfold andthen. specialize (X m w). destruct (x m w); auto. apply F. exact X. Qed.
Lemma e_maybe {A} (o : option A) : @ends W A (maybe o) any.
Proof. destruct o; [apply e_done; exact I|apply e_stuck]. Qed.
Lemma e_load a : @ends W Z (load_ a) any.
Proof. intros m w. unfold load_. destruct (load m a); exact I. Qed.
Lemma e_store a z : @ends W unit (store_ a z) any.
Proof. intros m w. unfold store_. destruct (store m a z); exact I. Qed.
Lemma e_alloc n : ends (alloc_ H n) any.
Proof. intros m w. unfold alloc_. destruct (alloc (h_place H) m n) as [[a m']|]; exact I. Qed.
Lemma e_step op a : @ends W (Z * Z) (step_by op a) any.
Proof.
  unfold step_by. eapply e_then; [apply e_load|]. intros o _. eapply e_then; [apply e_maybe|]. intros n _.
  eapply e_then; [apply e_store|]. intros _ _. apply e_done. exact I.
Qed.
Variable call : string -> list Z -> act W Z.
Variable may : string -> bool.
Hypothesis CALL : forall x l, may x = true -> ends (call x l) any.
Section Env.
Variable sc : scope.
Variable r : env.
Local Notation rv := (rvalue H locals call sc r).
Local Notation lv := (lvalue H locals call sc r).
Lemma e_variable x p : variable H sc r x = Some p -> ends p any.
Proof.
  unfold variable. destruct (inb x (sc_loc sc)); [intros K; injection K as <-; apply e_maybe|].
  destruct (inb x (sc_ext sc)); [intros K; injection K as <-; apply e_done; exact I|discriminate].
Qed.
Ltac next := first [eapply (e_then _ _ any); [solve [eauto using e_load, e_store, e_step, e_maybe]|intros ? _]
  | apply e_done; exact I | apply e_load | apply e_stuck | apply e_maybe
  | match goal with |- ends (let '(_, _) := ?x in _) _ => destruct x end
  | match goal with |- ends (if ?x then _ else _) _ => destruct x end].
Lemma e_expr :
  (forall e, calmE may sc e = true -> forall k, ends (rv k e) any /\ ends (lv k e) any) /\
  (forall l, calmA may sc l = true -> forall k, ends (rvalues H locals call sc r k l) any).
Proof.
  apply expr_exprs_ind; intros;
    try match goal with K : calmE _ _ (ECall ?f _) = true |- _ => destruct f; try discriminate K; cbn [calmE] in K; rewrite !andb_true_iff, !negb_true_iff in K; destruct K as [[[K1 K2] K3] K4] end;
    cbn [calmE calmA] in *; repeat match goal with K : _ && _ = true |- _ => apply andb_true_iff in K; destruct K end;
    repeat match goal with K : ?x = true -> _, J : ?x = true |- _ => specialize (K J) end.
  all: try match goal with |- _ /\ _ => split end.
  all: repeat match goal with K : forall k, ends _ _ /\ ends _ _ |- _ => pose proof (fun k => proj1 (K k)); pose proof (fun k => proj2 (K k)); clear K end.
  all: try match goal with |- ends (rvalue _ _ _ _ _ _ (ECall _ _)) _ => idtac | _ => cbn [rvalue lvalue rvalues] end;
    fold (rvalue H locals call sc r); fold (lvalue H locals call sc r).
  all: try solve [repeat first [assumption | solve [eauto] | next]].
  - destruct (variable H sc r name) eqn:E; [|apply e_done; exact I]. eapply (e_then _ _ any); [eapply e_variable; eauto|]. intros ? _. apply e_load.
  - destruct (variable H sc r name) eqn:E; [|apply e_stuck]. eapply e_variable; eauto.
  - rewrite call_named. assert (E : called H locals sc r name = None) by (unfold called, variable; rewrite K2, K3; destruct locals; reflexivity). rewrite E.
    eapply (e_then _ _ any); [auto|]. intros ? _. apply CALL. exact K1.
  - destruct op; repeat next.
Qed.
Lemma e_rv k e : calmE may sc e = true -> ends (rv k e) any.
Proof. intros O. apply (proj1 e_expr e O). Qed.
End Env.
Lemma e_automatics l : forall r, ends (automatics H l r) any.
Proof.
  induction l as [|[x n] l IH]; intros r; cbn [automatics]; [apply e_done; exact I|]. eapply (e_then _ _ any); [|intros; apply IH]. unfold automatic.
  destruct (n =? -1); [|destruct (n <? 0); [apply e_stuck|cbv zeta]]; (eapply e_then; [apply e_alloc|]; intros a _; eapply e_then; [apply e_store|]; intros _ _; apply e_done; exact I).
Qed.
Lemma e_parameters ps : forall args r, ends (parameters H ps args r) any.
Proof.
  induction ps as [|p ps IH]; intros args r; cbn [parameters]; [apply e_done; exact I|]. destruct args as [|z args]; [apply e_stuck|].
  eapply e_then; [apply e_alloc|]. intros a _. eapply e_then; [apply e_store|]. intros _ _. apply IH.
Qed.
Variable fuel : nat.
Definition stays (x : flow * env) : Prop := match fst x with Jump _ => False | _ => True end.
Lemma e_stmt :
  (forall s sc, calmS may sc s = true -> forall k t r, ends (exec H locals call fuel sc k s t r) stays) /\
  (forall l sc, calmL may sc l = true -> forall k t r, ends (execL H locals call fuel sc k l t r) stays).
Proof.
  apply stmt_stmts_ind; intros; cbn [calmS calmL] in *; repeat match goal with K : _ && _ = true |- _ => apply andb_true_iff in K; destruct K end; try discriminate;
    cbn [exec execL]; cbv zeta.
  all: try solve [repeat first [apply e_done; exact I | solve [eauto] | apply e_done; assumption | eapply e_then; [solve [eauto using e_rv, e_automatics]|intros ? ?]
     | match goal with |- ends (match ?x with _ => _ end) _ => destruct x end
     | match goal with |- ends (let '(_, _) := ?x in _) _ => destruct x end
     | match goal with K : stays (Jump _, _) |- _ => destruct K end ]].
Qed.
Lemma e_run sc k s : calmS may sc s = true -> forall n t r, ends (run H locals call fuel (S n) sc k s t r) any.
Proof.
  intros O n t r. cbn [run]. eapply e_then; [apply (proj1 e_stmt); eauto|]. intros [f r'] E.
  destruct f; [apply e_done; exact I|destruct E|apply e_done; exact I|apply e_stuck].
Qed.
Lemma e_invoke n ps s k args : calmS may (mkScope (rev ps) []) s = true -> ends (invoke H locals call fuel (S n) ps s k args) any.
Proof.
  intros O m w. unfold invoke.
  assert (X : ends (andthen (parameters H ps args (fun _ => None)) (fun r => run H locals call fuel (S n) (mkScope (rev ps) []) k s None r)) any).
  { eapply e_then; [apply e_parameters|]. intros r _. apply e_run. exact O. }
  specialize (X m w). destruct (andthen (parameters H ps args (fun _ => None)) (fun r => run H locals call fuel (S n) (mkScope (rev ps) []) k s None r) m w); auto.
Qed.
End Calm.
Lemma calm_defined rank ds : Forall (calmD rank) ds -> forall k x o,
  (forall ps s j, o = Some (ps, s, j) -> calmS (fun y => Nat.ltb (rank y) (rank x)) (mkScope (rev ps) []) s = true) ->
  forall ps s j, defined k ds x o = Some (ps, s, j) -> calmS (fun y => Nat.ltb (rank y) (rank x)) (mkScope (rev ps) []) s = true.
Proof.
  induction 1 as [|d ds D _ IH]; intros k x o O ps s j; cbn [defined]; [apply O|]. apply IH. intros ps' s' j' E.
  destruct d as [y l|y n l|y qs b]; eauto. destruct (String.eqb_spec y x); [|eauto]. injection E as <- <- <-. subst y. exact D.
Qed.
Theorem calm_calls {W} (H : host W) locals rank ds : Forall (calmD rank) ds -> forall n x args, (rank x + 2 <= n)%nat -> ends (calls H locals ds n x args) any.
Proof.
  intros O. induction n as [|n IH]; intros x args L; [lia|]. cbn [calls]. destruct (defined 0 ds x None) as [[[ps s] k]|] eqn:E.
  - destruct n as [|n]; [lia|]. eapply e_invoke; [|eapply (calm_defined rank ds O 0 x None); [discriminate|exact E]].
    intros y l K. apply IH. apply Nat.ltb_lt in K. lia.
  - intros m w. destruct (h_ext H x args m w) as [[|]|]; exact I.
Qed.
