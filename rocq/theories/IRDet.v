(** * IRDet: the generated code is deterministic *)
From Coq Require Import List Ascii String ZArith Bool.
From Verif Require Import Base IR SpecSem IRSem.
Import ListNotations.
Open Scope Z_scope.

Scheme step_mind := Induction for step Sort Prop
with steps_mind := Induction for steps Sort Prop
with icall_mind := Induction for icall Sort Prop.
Combined Scheme machine_ind from step_mind, steps_mind, icall_mind.

Section Det.
Context {W : Type}.
Variable I : ihost W.
Variable M : module_.
Definition over (x : @cfg W) : Prop := match x with Run _ _ _ => False | _ => True end.
Lemma over_steps F x y : over x -> steps I M F x y -> y = x.
Proof. intros O S. destruct S as [|F x y z S1 _]; auto. destruct S1; contradiction. Qed.
Lemma fetch_end F f i t : fetch F f = Some i -> at_end F f = Some t -> False.
Proof.
  unfold fetch, at_end. destruct (nth_error F (fr_blk f)) as [b|]; [|discriminate].
  destruct (Nat.eqb_spec (fr_idx f) (List.length (b_insts b))) as [E|]; [|discriminate]. intros K _.
  assert (N : nth_error (b_insts b) (fr_idx f) = None) by (apply nth_error_None; rewrite E; auto). congruence.
Qed.
Ltac clash := exfalso; match goal with A : fetch ?F ?f = Some ?i, B : at_end ?F ?f = Some ?t |- _ => exact (fetch_end F f i t A B) end.
Ltac term := match goal with A : at_end ?F ?f = Some ?t, B : at_end ?F ?f = Some ?u |- _ => let E := fresh in assert (E : t = u) by congruence; injection E; clear E; intros; subst end;
  repeat match goal with A : operand ?J ?f ?v = Some ?z, B : operand ?J ?f ?v = Some ?y |- _ => let E := fresh in assert (E : z = y) by congruence; clear B; subst end; auto.
Theorem deterministic :
  (forall F x y, step I M F x y -> forall z, step I M F x z -> y = z) /\
  (forall F x y, steps I M F x y -> over y -> forall z, steps I M F x z -> over z -> y = z) /\
  (forall g args m w r, icall I M g args m w r -> forall r', icall I M g args m w r' -> r = r').
Proof.
  apply (machine_ind W I M
    (fun F x y _ => forall z, step I M F x z -> y = z)
    (fun F x y _ => over y -> forall z, steps I M F x z -> over z -> y = z)
    (fun g args m w r _ => forall r', icall I M g args m w r' -> r = r')).
  - intros F i f m w f' m' E1 E2 z S. inversion S; subst; try clash.
    + congruence.
    + assert (E : i = ICall r v nf va args) by congruence. subst i. discriminate.
    + assert (E : i = ICall r v nf va args) by congruence. subst i. discriminate.
  - intros F r v nf va args f m w g zs z m' w' E1 E2 E3 _ IH y S. inversion S; subst; try clash.
    + assert (E : i = ICall r v nf va args) by congruence. subst i. discriminate.
    + assert (E : ICall r0 v0 nf0 va0 args0 = ICall r v nf va args) by congruence. injection E as -> -> -> -> ->.
      assert (g0 = g) by congruence. assert (zs0 = zs) by congruence. subst.
      match goal with K : icall _ _ _ _ _ _ _ |- _ => apply IH in K; injection K as <- <- <- end. auto.
    + assert (E : ICall r0 v0 nf0 va0 args0 = ICall r v nf va args) by congruence. injection E as -> -> -> -> ->.
      assert (g0 = g) by congruence. assert (zs0 = zs) by congruence. subst.
      match goal with K : icall _ _ _ _ _ _ _ |- _ => apply IH in K; discriminate end.
  - intros F r v nf va args f m w g zs z w' E1 E2 E3 _ IH y S. inversion S; subst; try clash.
    + assert (E : i = ICall r v nf va args) by congruence. subst i. discriminate.
    + assert (E : ICall r0 v0 nf0 va0 args0 = ICall r v nf va args) by congruence. injection E as -> -> -> -> ->.
      assert (g0 = g) by congruence. assert (zs0 = zs) by congruence. subst.
      match goal with K : icall _ _ _ _ _ _ _ |- _ => apply IH in K; discriminate end.
    + assert (E : ICall r0 v0 nf0 va0 args0 = ICall r v nf va args) by congruence. injection E as -> -> -> -> ->.
      assert (g0 = g) by congruence. assert (zs0 = zs) by congruence. subst.
      match goal with K : icall _ _ _ _ _ _ _ |- _ => apply IH in K; injection K as <- <- end. auto.
  - intros F v z f m w E1 E2 y S. inversion S; subst; try clash; try congruence; term.
  - intros F b f m w E1 y S. inversion S; subst; try clash; try congruence; term.
  - intros F v bt bf z f m w E1 E2 y S. inversion S; subst; try clash; try congruence; term.
  - intros F v d l z f m w E1 E2 y S. inversion S; subst; try clash; try congruence; term.
  - intros F x O z S _. symmetry. eapply over_steps; eauto.
  - intros F x y z S1 IH1 S2 IH2 O u S OU. inversion S; subst.
    + destruct u; try contradiction; inversion S1.
    + match goal with K : step _ _ _ x _ |- _ => apply IH1 in K; subst end. eauto.
  - intros g args m w fn fr z m' w' E1 E2 _ IH r' S. inversion S; subst; try congruence.
    + assert (fn0 = fn) by congruence. subst. assert (fr0 = fr) by congruence. subst.
      match goal with K : steps _ _ _ _ _ |- _ => apply IH in K; try exact Logic.I; injection K as <- <- <- end. auto.
    + assert (fn0 = fn) by congruence. subst. assert (fr0 = fr) by congruence. subst.
      match goal with K : steps _ _ _ _ _ |- _ => apply IH in K; try exact Logic.I; discriminate end.
  - intros g args m w fn fr z w' E1 E2 _ IH r' S. inversion S; subst; try congruence.
    + assert (fn0 = fn) by congruence. subst. assert (fr0 = fr) by congruence. subst.
      match goal with K : steps _ _ _ _ _ |- _ => apply IH in K; try exact Logic.I; discriminate end.
    + assert (fn0 = fn) by congruence. subst. assert (fr0 = fr) by congruence. subst.
      match goal with K : steps _ _ _ _ _ |- _ => apply IH in K; try exact Logic.I; injection K as <- <- end. auto.
  - intros g args m w r E1 E2 r' S. inversion S; subst; congruence.
Qed.

(** What ends does not go on for ever. *)
Lemma over_lasts F x n : over x -> lasts I M n F x -> n = 0%nat.
Proof. intros O L. inversion L as [|? ? ? ? S|]; subst; auto; [destruct S|]; contradiction. Qed.
Lemma step_lasts F x y n : (forall r v nf va args f m w, x = Run f m w -> fetch F f <> Some (ICall r v nf va args)) ->
  step I M F x y -> lasts I M n F x -> n = 0%nat \/ exists n', n = S n' /\ lasts I M n' F y.
Proof.
  intros NC S L. destruct L as [| |n F r v nf va args f m w g zs E]; auto.
  - right. exists n. split; auto. rewrite (proj1 deterministic F x y S _ H). auto.
  - destruct (NC r v nf va args f m w); auto.
Qed.
Lemma call_lasts F f m w n r v nf va args g zs y k : fetch F f = Some (ICall r v nf va args) -> callee I f v = Some g -> operands I f args = Some zs ->
  (forall j, busy I M j g zs m w -> (j <= k)%nat) -> step I M F (Run f m w) y -> lasts I M n F (Run f m w) ->
  (n <= S k)%nat \/ exists n', n = S n' /\ lasts I M n' F y.
Proof.
  intros E1 E2 E3 K S L. inversion L; subst.
  - left. apply le_0_n.
  - right. match goal with A : lasts _ _ ?j _ _ |- _ => exists j end. split; auto.
    match goal with A : step _ _ _ _ ?z |- lasts _ _ _ _ _ => rewrite (proj1 deterministic _ _ y S _ A) end. auto.
  - left. match goal with A : fetch _ _ = Some (ICall ?a ?b ?c ?d ?e) |- _ => assert (E : ICall a b c d e = ICall r v nf va args) by congruence end.
    injection E as -> -> -> -> ->. apply le_n_S, K.
    match goal with A : busy _ _ _ ?g' ?zs' _ _ |- _ => replace g with g' by congruence; replace zs with zs' by congruence; exact A end.
Qed.
Theorem ends_bounded :
  (forall F x y, step I M F x y -> exists k, forall n, lasts I M n F x -> (n <= k)%nat \/ exists n', n = S n' /\ lasts I M n' F y) /\
  (forall F x y, steps I M F x y -> over y -> exists k, forall n, lasts I M n F x -> (n <= k)%nat) /\
  (forall g args m w r, icall I M g args m w r -> exists k, forall n, busy I M n g args m w -> (n <= k)%nat).
Proof.
  assert (P : forall F x y, (forall r v nf va args f m w, x = Run f m w -> fetch F f <> Some (ICall r v nf va args)) -> step I M F x y ->
    exists k, forall n, lasts I M n F x -> (n <= k)%nat \/ exists n', n = S n' /\ lasts I M n' F y).
  { intros F x y NC S. exists 0%nat. intros n L. destruct (step_lasts F x y n NC S L) as [->|K]; auto. }
  apply (machine_ind W I M
    (fun F x y _ => exists k, forall n, lasts I M n F x -> (n <= k)%nat \/ exists n', n = S n' /\ lasts I M n' F y)
    (fun F x y _ => over y -> exists k, forall n, lasts I M n F x -> (n <= k)%nat)
    (fun g args m w r _ => exists k, forall n, busy I M n g args m w -> (n <= k)%nat)).
  - intros F i f m w f' m' E1 E2. apply P; [|eapply st_plain; eauto]. intros r v nf va args f0 m0 w0 E K. injection E as <- <- <-.
    assert (i = ICall r v nf va args) by congruence. subst i. discriminate.
  - intros F r v nf va args f m w g zs z m' w' E1 E2 E3 C [k K]. exists (S k). intros n L. eapply call_lasts; eauto. eapply st_call; eauto.
  - intros F r v nf va args f m w g zs z w' E1 E2 E3 C [k K]. exists (S k). intros n L. eapply call_lasts; eauto. eapply st_exit; eauto.
  - intros F v z f m w E1 E2. apply P; [|eapply st_ret; eauto]. intros r v0 nf va args f0 m0 w0 E K. injection E as <- <- <-. clash.
  - intros F b f m w E1. apply P; [|eapply st_br; eauto]. intros r v0 nf va args f0 m0 w0 E K. injection E as <- <- <-. clash.
  - intros F v bt bf z f m w E1 E2. apply P; [|eapply st_condbr; eauto]. intros r v0 nf va args f0 m0 w0 E K. injection E as <- <- <-. clash.
  - intros F v d l z f m w E1 E2. apply P; [|eapply st_switch; eauto]. intros r v0 nf va args f0 m0 w0 E K. injection E as <- <- <-. clash.
  - intros F x O. exists 0%nat. intros n L. rewrite (over_lasts _ _ _ O L). apply le_n.
  - intros F x y z S1 [k1 K1] S2 IH O. destruct (IH O) as [k2 K2]. exists (k1 + S k2)%nat. intros n L.
    destruct (K1 n L) as [B|(n' & -> & L')]; [eapply Nat.le_trans; [exact B|apply Nat.le_add_r]|].
    apply K2 in L'. eapply Nat.le_trans; [apply le_n_S; exact L'|]. rewrite Nat.add_comm. apply Nat.le_add_r.
  - intros g args m w fn fr z m' w' E1 E2 _ IH. destruct (IH Logic.I) as [k K]. exists (S k). intros n B. inversion B; subst; [apply le_0_n|].
    apply le_n_S, K. assert (fn0 = fn) by congruence. subst. assert (fr0 = fr) by congruence. subst. auto.
  - intros g args m w fn fr z w' E1 E2 _ IH. destruct (IH Logic.I) as [k K]. exists (S k). intros n B. inversion B; subst; [apply le_0_n|].
    apply le_n_S, K. assert (fn0 = fn) by congruence. subst. assert (fr0 = fr) by congruence. subst. auto.
  - intros g args m w r E1 E2. exists 0%nat. intros n B. inversion B; subst; [apply le_n|congruence].
Qed.
End Det.
