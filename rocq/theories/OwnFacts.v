(** * OwnFacts: functions that assign only to variables of their own change no other word *)
From Coq Require Import List Ascii String ZArith Bool Lia.
From Verif Require Import Base IR Expr Syntax SpecSem MemFacts SemShift SpecOwn.
Import ListNotations.
Open Scope Z_scope.

Section Own.
Context {W : Type}.
Variable H : host W.
Variable locals : bool.
Hypothesis SANE : sane (h_place H).
Variable R : W -> W -> Prop.
Hypothesis R_refl : forall w, R w w.
Hypothesis R_trans : forall a b c, R a b -> R b c -> R a c.
Section From.
Variable m0 : memory.
Variable w0 : W.
Definition inv (m : memory) (w : W) : Prop := kept m0 m /\ incl (m_static m0) (m_static m) /\ R w0 w.
Definition safe {A} (x : act W A) (Q : A -> Prop) : Prop := forall m w, inv m w ->
  match x m w with Val a m' w' => inv m' w' /\ Q a | Halt _ w' => R w0 w' | _ => True end.
Definition any {A} (a : A) : Prop := True.
Lemma s_done {A} (a : A) (Q : A -> Prop) : Q a -> safe (done a) Q.
Proof. intros K m w I. split; auto. Qed.
Lemma s_stuck {A} (Q : A -> Prop) : safe stuck Q.
Proof. intros m w I. exact Logic.I. Qed.
Lemma s_then {A B} (x : act W A) (f : A -> act W B) P Q : safe x P -> (forall a, P a -> safe (f a) Q) -> safe (andthen x f) Q.
Proof. intros X F m w I. unfold andthen. specialize (X m w I). destruct (x m w); auto. destruct X as [X1 X2]. apply F; auto. Qed.
Lemma s_weak {A} (x : act W A) (P Q : A -> Prop) : safe x P -> (forall a, P a -> Q a) -> safe x Q.
Proof. intros X F m w I. specialize (X m w I). destruct (x m w); auto. destruct X as [X1 X2]. auto. Qed.
Lemma s_any {A} (x : act W A) (P : A -> Prop) : safe x P -> safe x any.
Proof. intros X. eapply s_weak; [exact X|]. intros; exact Logic.I. Qed.
Lemma s_maybe {A} (o : option A) (Q : A -> Prop) : (forall a, o = Some a -> Q a) -> safe (maybe o) Q.
Proof. destruct o; intros K; [apply s_done; auto|apply s_stuck]. Qed.
Lemma s_load a : safe (load_ a) any.
Proof. intros m w I. unfold load_. destruct (load m a); [split; [exact I|exact Logic.I]|exact Logic.I]. Qed.
Definition mine (a : Z) : Prop := fresh m0 a 8.
Lemma s_store a z : mine a -> safe (store_ a z) any.
Proof.
  intros F m w (I1 & I2 & I3). unfold store_. destruct (store m a z) as [m'|] eqn:E; [|exact Logic.I]. split; [|exact Logic.I].
  split; [eapply store_kept; eauto|]. split; [|exact I3]. unfold store in E. destruct (word_ok m a); [|discriminate]. injection E as <-. exact I2.
Qed.
Lemma s_alloc n : 8 <= n -> safe (alloc_ H n) mine.
Proof.
  intros N m w (I1 & I2 & I3). unfold alloc_. destruct (alloc (h_place H) m n) as [[a m']|] eqn:E; [|exact Logic.I].
  destruct (alloc_facts _ SANE _ _ _ _ E) as (_ & F & K & _). split.
  - split; [eapply kept_trans; eauto|]. split; [|exact I3]. unfold alloc in E. destruct (h_place H m n); [|discriminate]. injection E as <- <-. exact I2.
  - intros b B. destruct (fresh_kept _ _ _ _ I1 F b B) as [L|L]; unfold apart; lia.
Qed.
Definition mine_env (r : env) : Prop := forall x a, r x = Some a -> mine a.
Lemma mine_put x a r : mine a -> mine_env r -> mine_env (put x a r).
Proof. intros A E y b. unfold put. destruct (String.eqb y x); [intros K; injection K as <-; exact A|apply E]. Qed.
Lemma s_parameters ps : forall args r, mine_env r -> safe (parameters H ps args r) mine_env.
Proof.
  induction ps as [|p ps IH]; intros args r E; cbn [parameters]; [apply s_done; auto|]. destruct args as [|z args]; [apply s_stuck|].
  eapply s_then; [apply s_alloc; lia|]. intros a M. eapply s_then; [apply s_store; exact M|]. intros _ _. apply IH. apply mine_put; auto.
Qed.

Variable call : string -> list Z -> act W Z.
Hypothesis CALL : forall x l, safe (call x l) any.
Lemma s_call_at a l : safe (call_at H call a l) any.
Proof. unfold call_at. destruct (h_fun H a); [apply CALL|apply s_stuck]. Qed.
Lemma s_step op a : mine a -> safe (step_by op a) (@any (Z * Z)).
Proof.
  intros M. unfold step_by. eapply s_then; [apply s_load|]. intros o _. eapply (s_then _ _ any); [apply s_maybe; intros; exact Logic.I|]. intros n _.
  eapply s_then; [apply s_store; exact M|]. intros _ _. apply s_done. exact Logic.I.
Qed.
Section Env.
Variable sc : scope.
Variable r : env.
Hypothesis ENV : mine_env r.
Local Notation rv := (rvalue H locals call sc r).
Local Notation lv := (lvalue H locals call sc r).
Lemma s_variable x p : variable H sc r x = Some p -> safe p any.
Proof.
  unfold variable. destruct (inb x (sc_loc sc)); [intros K; injection K as <-; apply s_maybe; intros; exact Logic.I|].
  destruct (inb x (sc_ext sc)); [intros K; injection K as <-; apply s_done; exact Logic.I|discriminate].
Qed.
Lemma s_called x p : called H locals sc r x = Some p -> safe p any.
Proof.
  unfold called. destruct locals; [apply s_variable|]. destruct (inb x (sc_ext sc)); [intros K; injection K as <-; apply s_done; exact Logic.I|discriminate].
Qed.
Lemma s_target k e : own_target sc e = true -> safe (lv k e) mine.
Proof.
  destruct e; try discriminate. cbn [own_target lvalue]. intros K. unfold variable. rewrite K. apply s_maybe. intros a E. eapply ENV; eauto.
Qed.
Ltac yes := exact Logic.I.
Ltac next := first [eapply (s_then _ _ any); [solve [eauto using s_load, s_call_at]|intros ? _]
  | apply s_done; yes | apply s_load | apply s_call_at | apply CALL | apply s_stuck | apply s_maybe; intros; yes].
Lemma s_expr :
  (forall e, ownE sc e = true -> forall k, safe (rv k e) any /\ safe (lv k e) any) /\
  (forall l, ownA sc l = true -> forall k, safe (rvalues H locals call sc r k l) any).
Proof.
  apply expr_exprs_ind; intros; cbn [ownE ownA] in *; repeat match goal with K : _ && _ = true |- _ => apply andb_true_iff in K; destruct K end;
    repeat match goal with K : ?x = true -> _, J : ?x = true |- _ => specialize (K J) end.
  all: try match goal with |- _ /\ _ => split end.
  all: try match goal with |- safe (rvalue _ _ _ _ _ _ (ECall _ _)) _ => idtac | _ => cbn [rvalue lvalue rvalues] end.
  all: try solve [repeat match goal with K : forall k, safe _ _ /\ safe _ _ |- _ => pose proof (fun k => proj1 (K k)); pose proof (fun k => proj2 (K k)); clear K end;
    repeat first [assumption | solve [eauto] | next]].
  all: fold (rvalue H locals call sc r); fold (lvalue H locals call sc r).
  - destruct (variable H sc r name) eqn:E; [|apply s_done; yes]. eapply (s_then _ _ any); [eapply s_variable; eauto|]. intros ? _. apply s_load.
  - destruct (variable H sc r name) eqn:E; [|apply s_stuck]. eapply s_variable; eauto.
  - destruct (call_or locals sc r H call k f args) as [[x ->]|E].
    + rewrite call_named. destruct (called H locals sc r x) eqn:E; [|repeat next]. eapply (s_then _ _ any); [eapply s_called; eauto|]. intros ? _. repeat next.
    + rewrite E. match goal with K : forall k, safe _ _ /\ safe _ _ |- _ => pose proof (fun k => proj1 (K k)) end. repeat next.
  - eapply s_then; [apply s_target; assumption|]. intros p P. eapply s_then; [apply s_step; exact P|]. intros [? ?] _. next.
  - eapply s_then; [apply s_target; assumption|]. intros p P. eapply s_then; [apply s_step; exact P|]. intros [? ?] _. next.
  - eapply s_then; [apply s_target; assumption|]. intros p P. eapply s_then; [apply s_step; exact P|]. intros [? ?] _. next.
  - eapply (s_then _ _ any); [match goal with K : forall k, safe (rv k a) _ /\ _ |- _ => apply K end|]. intros v _.
    destruct (v =? 0); [match goal with K : forall k, safe (rv k c) _ /\ _ |- _ => apply K end|match goal with K : forall k, safe (rv k b) _ /\ _ |- _ => apply K end].
  - destruct op; (eapply s_then; [apply s_target; assumption|]); intros p P; (eapply (s_then _ _ any); [match goal with K : forall k, safe (rv k b) _ /\ _ |- _ => apply K end|]); intros v _.
    + next. eapply (s_then _ _ any); [apply s_maybe; intros; yes|]. intros ? _. eapply s_then; [apply s_store; exact P|]. intros _ _. next.
    + eapply s_then; [apply s_store; exact P|]. intros _ _. next.
Qed.
Lemma s_rv k e : ownE sc e = true -> safe (rv k e) any.
Proof. intros O. apply (proj1 s_expr e O). Qed.
End Env.
Lemma s_automatic x n r : mine_env r -> safe (automatic H x n r) mine_env.
Proof.
  intros E. unfold automatic. destruct (n =? -1).
  - eapply s_then; [apply s_alloc; lia|]. intros a M. eapply s_then; [apply s_store; exact M|]. intros _ _. apply s_done. apply mine_put; auto.
  - destruct (Z.ltb_spec n 0); [apply s_stuck|]. cbv zeta. eapply s_then; [apply s_alloc; destruct (n =? 0); lia|]. intros a M.
    eapply s_then; [apply s_store; exact M|]. intros _ _. apply s_done. apply mine_put; auto.
Qed.
Lemma s_automatics l : forall r, mine_env r -> safe (automatics H l r) mine_env.
Proof. induction l as [|[x n] l IH]; intros r E; cbn [automatics]; [apply s_done; auto|]. eapply s_then; [apply s_automatic; auto|]. exact IH. Qed.
Definition mine_flow (x : flow * env) : Prop := mine_env (snd x).
Lemma s_limit {A} (Q : A -> Prop) : safe limit Q. Proof. intros m w I. exact Logic.I. Qed.
Lemma s_loop (test : env -> act W Z) body : (forall r, mine_env r -> safe (test r) any) -> (forall r, mine_env r -> safe (body r) mine_flow) ->
  forall n r, mine_env r -> safe (loop n test body r) mine_flow.
Proof.
  intros T B. induction n as [|n IH]; intros r E; cbn [loop]; [apply s_limit|]. eapply s_then; [apply T; exact E|]. intros v _.
  destruct (v =? 0); [apply s_done; exact E|]. eapply s_then; [apply B; exact E|]. intros [f r'] E'. destruct f; auto using s_stuck; try (apply s_done; exact E').
Qed.
Variable fuel : nat.
Lemma s_stmt :
  (forall s sc, ownS sc s = true -> forall k t r, mine_env r -> safe (exec H locals call fuel sc k s t r) mine_flow) /\
  (forall l sc, ownL sc l = true -> forall k t r, mine_env r -> safe (execL H locals call fuel sc k l t r) mine_flow).
Proof.
  apply stmt_stmts_ind; intros; cbn [ownS ownL] in *; repeat match goal with K : _ && _ = true |- _ => apply andb_true_iff in K; destruct K end;
    cbn [exec execL]; cbv zeta.
  all: try solve [repeat first [apply s_done; assumption | solve [eauto] | apply s_stuck | eapply s_then; [solve [eauto using s_rv, s_automatics]|intros ? ?]
     | apply s_loop; [intros; apply s_rv; assumption|solve [eauto]|assumption]
     | match goal with |- safe (match ?x with _ => _ end) _ => destruct x end
     | match goal with |- safe (let '(_, _) := ?x in _) _ => destruct x end
     | match goal with K : mine_flow (_, _) |- _ => change (mine_env (snd (f, e))) in K end ]].
Qed.
Lemma s_run sc k s : ownS sc s = true -> forall n t r, mine_env r -> safe (run H locals call fuel n sc k s t r) any.
Proof.
  intros O. induction n as [|n IH]; intros t r E; cbn [run]; [apply s_limit|]. eapply s_then; [apply (proj1 s_stmt); eauto|]. intros [f r'] E'.
  destruct f; [apply s_done; exact Logic.I|apply IH; exact E'|apply s_done; exact Logic.I|apply s_stuck].
Qed.
End From.
(** What was done by a call. *)
Definition harmless_res (m : memory) (w : W) (o : res W Z) : Prop :=
  match o with
  | Val z m' w' => harmless R m w (XRet z m' w')
  | Halt z w' => harmless R m w (XExit z w')
  | _ => True
  end.
Lemma harmless_safe (call : string -> list Z -> act W Z) : (forall x l m w, harmless_res m w (call x l m w)) -> forall m0 w0 x l, safe m0 w0 (call x l) any.
Proof.
  intros K m0 w0 x l m w (I1 & I2 & I3). specialize (K x l m w). unfold harmless_res, harmless in K. destruct (call x l m w); auto; [|eauto].
  destruct K as (K1 & K2 & K3). split; [|exact Logic.I]. split; [eapply kept_trans; eauto|]. split; [eapply incl_tran; eauto|eauto].
Qed.
Lemma pop_kept m0 m : kept m0 m -> incl (m_static m0) (m_static m) -> kept m0 (pop m0 m).
Proof.
  intros K I b B. assert (B' : word_ok (pop m0 m) b = true).
  { unfold word_ok, accessible in *. apply andb_true_iff in B. destruct B as [B1 B2]. rewrite B1. cbn [andb pop m_stack m_static].
    apply existsb_exists in B2. destruct B2 as (o & O1 & O2). apply existsb_exists. exists o. split; [|exact O2]. apply in_app_or in O1. apply in_or_app. destruct O1; auto. }
  split; [exact B'|]. destruct (K b B) as [C E]. rewrite <- E. unfold load. rewrite B', C. reflexivity.
Qed.
Lemma own_invoke call fuel n ps s k args m w : (forall x l m w, harmless_res m w (call x l m w)) -> ownS (mkScope (rev ps) []) s = true ->
  harmless_res m w (invoke H locals call fuel n ps s k args m w).
Proof.
  intros C O. unfold invoke.
  assert (X : safe m w (andthen (parameters H ps args (fun _ => None)) (fun r => run H locals call fuel n (mkScope (rev ps) []) k s None r)) any).
  { eapply s_then; [apply s_parameters; intros x a K; discriminate K|]. intros r E. apply s_run; auto. apply harmless_safe. exact C. }
  specialize (X m w). unfold harmless_res, harmless. destruct (andthen (parameters H ps args (fun _ => None)) (fun r => run H locals call fuel n (mkScope (rev ps) []) k s None r) m w) as [z m' w'|z w'| |]; auto; [|apply X; split; [apply kept_refl|split; [apply incl_refl|auto]]].
  destruct X as [(X1 & X2 & X3) _]; [split; [apply kept_refl|split; [apply incl_refl|auto]]|].
  split; [apply pop_kept; auto|]. split; [exact X2|exact X3].
Qed.
Lemma own_defined ds : Forall ownD ds -> forall k x o, (forall ps s j, o = Some (ps, s, j) -> ownS (mkScope (rev ps) []) s = true) ->
  forall ps s j, defined k ds x o = Some (ps, s, j) -> ownS (mkScope (rev ps) []) s = true.
Proof.
  induction 1 as [|d ds D _ IH]; intros k x o O ps s j; cbn [defined]; [apply O|]. apply IH. intros ps' s' j' E.
  destruct d as [y l|y n l|y qs b]; eauto. destruct (String.eqb y x); [|eauto]. injection E as <- <- <-. exact D.
Qed.
Theorem own_calls ds : Forall ownD ds -> (forall x args m w r, h_ext H x args m w = Some r -> harmless R m w r) ->
  forall n x args m w, harmless_res m w (calls H locals ds n x args m w).
Proof.
  intros O X. induction n as [|n IH]; intros x args m w; [exact Logic.I|]. cbn [calls]. destruct (defined 0 ds x None) as [[[ps s] k]|] eqn:E.
  - apply own_invoke; auto. eapply (own_defined ds O 0 x None); [discriminate|exact E].
  - destruct (h_ext H x args m w) as [r|] eqn:F; [|exact Logic.I]. specialize (X _ _ _ _ _ F). destruct r; exact X.
Qed.
End Own.
