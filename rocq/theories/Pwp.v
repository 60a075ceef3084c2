(** * Pwp: postconditions of generator actions *)
From Coq Require Import List Ascii String ZArith NArith Lia Bool.
From Verif Require Import Base Lexer IR Builder Expr Stmt Decl Wp Syntax Pure.
Import ListNotations.
Open Scope Z_scope.
Open Scope m_scope.

(** If [m] succeeds in [c], [Q] holds of its result. *)
Definition pwp {A} (m : C A) (Q : A -> cstate -> Prop) (c : cstate) : Prop :=
  forall a c', yields m c a c' -> Q a c'.

Lemma pwp_ret {A} (a : A) (Q : A -> cstate -> Prop) c : Q a c -> pwp (ret a) Q c.
Proof. intros H b c' Y. apply yields_ret_inv in Y. destruct Y as [-> ->]. auto. Qed.
Lemma pwp_err {A} e (Q : A -> cstate -> Prop) c : pwp (errorf e) Q c.
Proof. intros b c' Y. destruct (yields_errorf_inv _ _ _ _ Y). Qed.
Lemma pwp_bind {A B} (m : C A) (f : A -> C B) Q c : pure m ->
  pwp m (fun a c' => pwp (f a) Q c') c -> pwp (bind m f) Q c.
Proof.
  intros P H b c' Y. apply yields_bind_inv in Y; auto. destruct Y as (a & c1 & Y1 & Y2).
  eapply H; eauto.
Qed.
Lemma pwp_mono {A} (m : C A) (P Q : A -> cstate -> Prop) c :
  pwp m P c -> (forall a c', P a c' -> Q a c') -> pwp m Q c.
Proof. intros H1 H2 a c' Y. auto. Qed.
Lemma pwp_and {A} (m : C A) (P Q : A -> cstate -> Prop) c :
  pwp m P c -> pwp m Q c -> pwp m (fun a c' => P a c' /\ Q a c') c.
Proof. intros H1 H2 a c' Y. auto. Qed.
Lemma pwp_use {A B} (m : C A) (f : A -> C B) P Q c : pure m -> pwp m P c ->
  (forall a c', P a c' -> pwp (f a) Q c') -> pwp (bind m f) Q c.
Proof. intros HP H1 H2. apply pwp_bind; auto. eapply pwp_mono; eauto. Qed.
Lemma pwp_get (Q : cstate -> cstate -> Prop) c : Q c c -> pwp get Q c.
Proof. intros H a c' Y. specialize (Y (mkLexer [] false)). cbn in Y. injection Y as <- <-; auto. Qed.
Lemma pwp_modify f (Q : unit -> cstate -> Prop) c : Q tt (f c) -> pwp (modify f) Q c.
Proof. intros H a c' Y. specialize (Y (mkLexer [] false)). cbn in Y. injection Y as <- <-. auto. Qed.
Lemma pwp_fresh (Q : nat -> cstate -> Prop) c : Q (c_nreg c) (set_nreg (S (c_nreg c)) c) -> pwp fresh Q c.
Proof. intros H a c' Y. specialize (Y (mkLexer [] false)). cbn in Y. injection Y as <- <-. auto. Qed.
Lemma pwp_NewBlock n (Q : nat -> cstate -> Prop) c :
  Q (List.length (c_blocks c)) (set_blocks (c_blocks c ++ [mkBlock n [] None]) c) -> pwp (NewBlock n) Q c.
Proof. intros H a c' Y. specialize (Y (mkLexer [] false)). cbn in Y. injection Y as <- <-. auto. Qed.
Lemma pwp_nextLabelID (Q : Z -> cstate -> Prop) c :
  Q (c_labelID c) (set_labelID (c_labelID c + 1) c) -> pwp nextLabelID Q c.
Proof. intros H a c' Y. specialize (Y (mkLexer [] false)). cbn in Y. injection Y as <- <-. auto. Qed.
Lemma pwp_emit i (Q : unit -> cstate -> Prop) c :
  Q tt (set_blocks (upd (c_builder c) (add_inst i) (c_blocks c)) c) -> pwp (emit i) Q c.
Proof. apply pwp_modify. Qed.
Lemma pwp_setTerm t (Q : unit -> cstate -> Prop) c :
  Q tt (set_blocks (upd (c_builder c) (put_term t) (c_blocks c)) c) -> pwp (setTerm t) Q c.
Proof. apply pwp_modify. Qed.
(** The state after an instruction with a result. *)
Definition emitted (mk : nat -> inst) (c : cstate) : cstate :=
  set_blocks (upd (c_builder c) (add_inst (mk (c_nreg c))) (c_blocks c)) (set_nreg (S (c_nreg c)) c).
Lemma pwp_emitR mk (Q : value -> cstate -> Prop) c :
  Q (VReg (c_nreg c)) (emitted mk c) -> pwp (emitR mk) Q c.
Proof. intros H. unfold emitR. apply pwp_bind; [auto with pure|]. apply pwp_fresh. apply pwp_bind; [auto with pure|].
  apply pwp_emit. apply pwp_ret. exact H. Qed.
Lemma pwp_SetInsertPoint b (Q : unit -> cstate -> Prop) c : Q tt (set_builder b c) -> pwp (SetInsertPoint b) Q c.
Proof. apply pwp_modify. Qed.
Lemma pwp_GetInsertBlock (Q : nat -> cstate -> Prop) c : Q (c_builder c) c -> pwp GetInsertBlock Q c.
Proof. intros H. unfold GetInsertBlock. apply pwp_bind; [auto with pure|]. apply pwp_get. apply pwp_ret. exact H. Qed.
Lemma pwp_bind_local n v (Q : unit -> cstate -> Prop) c :
  Q tt (set_locals ((n, v) :: c_locals c) c) -> pwp (bind_local n v) Q c.
Proof. apply pwp_modify. Qed.
Lemma pwp_if {A} (b : bool) (m1 m2 : C A) Q c :
  (b = true -> pwp m1 Q c) -> (b = false -> pwp m2 Q c) -> pwp (if b then m1 else m2) Q c.
Proof. destruct b; auto. Qed.
Lemma pwp_termIsNil (Q : bool -> cstate -> Prop) c :
  (forall b, (b = true -> exists bl, nth_error (c_blocks c) (c_builder c) = Some bl /\ b_term bl = None) ->
     (b = false -> nth_error (c_blocks c) (c_builder c) = None \/
        exists bl t, nth_error (c_blocks c) (c_builder c) = Some bl /\ b_term bl = Some t) -> Q b c) ->
  pwp termIsNil Q c.
Proof.
  intros H. unfold termIsNil. apply pwp_bind; [auto with pure|]. apply pwp_get.
  destruct (nth_error (c_blocks c) (c_builder c)) as [bl|] eqn:E.
  - apply pwp_ret. apply H.
    + destruct (b_term bl) eqn:T; [discriminate|]. eauto.
    + destruct (b_term bl) eqn:T; [|discriminate]. eauto.
  - apply pwp_ret. apply H; auto. discriminate.
Qed.

(** Chaining. *)
Lemma pwp_yields {A} (m : C A) Q c a c' : pwp m Q c -> yields m c a c' -> Q a c'.
Proof. auto. Qed.

(** Lists. *)
Lemma upd_length {A} n f (l : list A) : List.length (upd n f l) = List.length l.
Proof. revert n; induction l as [|x l IH]; intros [|n]; cbn; auto. Qed.
Lemma nth_upd_same {A} n f (l : list A) : nth_error (upd n f l) n = option_map f (nth_error l n).
Proof. revert n; induction l as [|x l IH]; intros [|n]; cbn; auto. Qed.
Lemma nth_upd_other {A} n m f (l : list A) : n <> m -> nth_error (upd n f l) m = nth_error l m.
Proof.
  revert n m; induction l as [|x l IH]; intros [|n] [|m] H; cbn; auto; try congruence.
Qed.
Lemma map_upd {A B} (g : A -> B) n f (l : list A) : (forall x, g (f x) = g x) -> map g (upd n f l) = map g l.
Proof. intros H. revert n; induction l as [|x l IH]; intros [|n]; cbn; auto; congruence. Qed.
Lemma upd_split {A} n f (l : list A) x : nth_error l n = Some x ->
  exists l1 l2, l = l1 ++ x :: l2 /\ List.length l1 = n /\ upd n f l = l1 ++ f x :: l2.
Proof.
  revert n; induction l as [|y l IH]; intros [|n] H; cbn in *; try discriminate.
  - injection H as ->. exists [], l. auto.
  - destruct (IH n H) as (l1 & l2 & -> & <- & E). exists (y :: l1), l2. cbn. rewrite E. auto.
Qed.

(** Equations of the generator where one function calls the other. *)
Lemma gen_call chk q f args : gen chk q (ECall f args) =
  ('(v, l) <- gen chk false f ;; fn <- rval v l ;; vs <- genArgs chk args ;; res <- doCall fn vs ;; ret (res, false)).
Proof. reflexivity. Qed.
Lemma genArgs_cons chk e r : genArgs chk (ECons e r) =
  ('(v, lv) <- gen chk false e ;; v <- rval v lv ;; vs <- genArgs chk r ;; ret (v :: vs)).
Proof. reflexivity. Qed.
Lemma genS_block chk l sw : genS chk (SBlock l) sw = genL chk l sw.
Proof. reflexivity. Qed.
Lemma genL_cons chk s r sw : genL chk (SCons s r) sw = (sw <- genS chk s sw ;; genL chk r sw).
Proof. reflexivity. Qed.
Ltac ugen := first [rewrite gen_call | rewrite genArgs_cons | progress cbn [gen] | progress cbn [genArgs]].
Ltac ugenS := first [rewrite genS_block | rewrite genL_cons | progress cbn [genS] | progress cbn [genL]].
