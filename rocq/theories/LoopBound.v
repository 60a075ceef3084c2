(** * LoopBound: the loops of printf that end at all end within a fixed number of turns
    Indices are 64-bit words, so a loop that ends does not visit an index twice. *)
From Coq Require Import List Ascii String ZArith NArith Lia Bool.
From Verif Require Import Base Lexer LexerFacts SpecLex Runtime.
Import ListNotations.
Open Scope Z_scope.
Open Scope r_scope.

(** ** Iterating a function on words *)
Section Orbit.
Variable f : Z -> option Z.
Inductive exactly : nat -> Z -> Prop :=
| ex_last x : f x = None -> exactly 1 x
| ex_more n x y : f x = Some y -> exactly n y -> exactly (S n) x.
Lemma exactly_unique n x : exactly n x -> forall n', exactly n' x -> n = n'.
Proof.
  induction 1 as [x E|n x y E K IH]; intros n' K'; inversion K'; subst; try congruence.
  f_equal. apply IH. congruence.
Qed.
Definition isword (z : Z) : Prop := - 2 ^ 63 <= z < 2 ^ 63.
Hypothesis closed : forall x y, f x = Some y -> isword y.
Lemma orbit n x : exactly n x -> isword x -> exists l, List.length l = n /\ NoDup l /\ Forall isword l /\
  (forall y, In y l -> exists k, (k <= n)%nat /\ exactly k y).
Proof.
  induction 1 as [x E|n x y E K IH]; intros Wx.
  - exists [x]. repeat split; auto.
    + repeat constructor. auto.
    + intros y [<-|[]]. exists 1%nat. split; [lia|constructor; auto].
  - destruct IH as (l & L & ND & F & C); [eapply closed; eauto|].
    exists (x :: l). repeat split; auto.
    + cbn. congruence.
    + constructor; auto. intros Hx. destruct (C _ Hx) as (k & Hk & Ek). assert (K2 : exactly (S n) x) by (eapply ex_more; eauto).
      pose proof (exactly_unique _ _ Ek _ K2). lia.
    + intros z [<-|Hz]; [exists (S n); split; [lia|eapply ex_more; eauto]|]. destruct (C _ Hz) as (k & Hk & Ek). exists k. split; auto.
Qed.
(** The number of words of [bits] bits. (A function: the virtual machine
    evaluates constants as soon as they are mentioned.) *)
Definition patterns (bits : Z) : nat := Z.to_nat (2 ^ bits).
Notation allwords := (patterns 64).
Lemma allwords_Z : Z.of_nat allwords = 2 ^ 64. Proof. unfold patterns. apply Z2Nat.id. discriminate. Qed.
Opaque patterns.
Lemma words_bound l : NoDup l -> Forall isword l -> (List.length l <= allwords)%nat.
Proof.
  intros ND F. rewrite <- (seq_length allwords 0), <- (map_length (fun n => Z.of_nat n - 2 ^ 63)). apply NoDup_incl_length; auto.
  intros z Hz. rewrite Forall_forall in F. specialize (F _ Hz). unfold isword in F. apply (proj2 (in_map_iff _ _ _)). exists (Z.to_nat (z + 2 ^ 63)).
  split; [rewrite Z2Nat.id; lia|]. apply (proj2 (in_seq _ _ _)). pose proof allwords_Z. lia.
Qed.
Lemma exactly_bound n x : exactly n x -> isword x -> (n <= allwords)%nat.
Proof. intros K Wx. destruct (orbit n x K Wx) as (l & <- & ND & F & _). apply words_bound; auto. Qed.
End Orbit.
Global Opaque patterns.
Notation allwords := (patterns 64).

(** ** %s *)
Definition next_s (sc : bool) (w : world) (x j : Z) : option Z :=
  if char_val sc (w_mem w (u64 (x + j))) =? 0 then None else Some (wrap64 (j + 1)).
Lemma wrap_isword z : isword (wrap64 z). Proof. apply wrap64_range. Qed.
Lemma write_mem z w w' : b_write z w = Done tt w' -> w_mem w' = w_mem w.
Proof.
  unfold b_write. destruct (write_loop _ _ _ _) as [[b p]|]; [|discriminate]. destruct (slice_buf _ _ _); [|discriminate].
  unfold rbind, get_fout, sys_write. intros E. injection E as <-. reflexivity.
Qed.
Lemma printd_mem z w w' : b_printd z w = Done tt w' -> w_mem w' = w_mem w.
Proof.
  unfold b_printd. destruct (printd_loop _ _ _ _) as [[b p]|]; [|discriminate].
  destruct (if z <? 0 then _ else _) as [[b' p']|]; [|discriminate]. destruct (slice_buf _ _ _); [|discriminate].
  unfold rbind, get_fout, sys_write. intros E. injection E as <-. reflexivity.
Qed.
Lemma printo_mem z w w' : b_printo z w = Done tt w' -> w_mem w' = w_mem w.
Proof.
  unfold b_printo. destruct (printo_loop _ _ _ _) as [[b p]|]; [|discriminate]. destruct (slice_buf _ _ _); [|discriminate].
  unfold rbind, get_fout, sys_write. intros E. injection E as <-. reflexivity.
Qed.
Lemma rbind_done {A B} (m : R A) (k : A -> R B) w b w' : rbind m k w = Done b w' -> exists a w1, m w = Done a w1 /\ k a w1 = Done b w'.
Proof. unfold rbind. destruct (m w) as [a w1| | |]; try discriminate. eauto. Qed.
Lemma prints_ends sc x : forall n j w w', prints_loop n sc x j w = Done tt w' -> w_mem w' = w_mem w /\
  exists k, exactly (next_s sc w x) k j /\ forall n', (k <= n')%nat -> prints_loop n' sc x j w = Done tt w'.
Proof.
  induction n as [|n IH]; intros j w w' E; [discriminate E|]. cbn [prints_loop] in E.
  apply rbind_done in E. destruct E as (c & w1 & E1 & E). injection E1 as <- <-.
  destruct (char_val sc (w_mem w (u64 (x + j))) =? 0) eqn:C0.
  - injection E as <-. split; auto. exists 1%nat. split; [constructor; unfold next_s; rewrite C0; auto|].
    intros [|n'] L; [lia|]. cbn [prints_loop]. unfold rbind at 1, b_char, rbind, peek, rret. rewrite C0. reflexivity.
  - apply rbind_done in E. destruct E as ([] & w2 & E1 & E). pose proof (write_mem _ _ _ E1) as M2.
    destruct (IH _ _ _ E) as (M3 & k & K & N). split; [congruence|]. exists (S k). split.
    + eapply ex_more; [unfold next_s; rewrite C0; reflexivity|].
      assert (EQ : next_s sc w2 x = next_s sc w x) by (unfold next_s; rewrite M2; reflexivity). rewrite <- EQ. exact K.
    + intros [|n'] L; [lia|]. cbn [prints_loop]. unfold rbind at 1, b_char, rbind at 1, peek, rret. rewrite C0. unfold rbind. rewrite E1. apply N. lia.
Qed.
Lemma prints_bound sc x n j w w' : isword j -> prints_loop n sc x j w = Done tt w' ->
  forall n', (allwords <= n')%nat -> prints_loop n' sc x j w = Done tt w'.
Proof.
  intros Wj E n' L. destruct (prints_ends _ _ _ _ _ _ E) as (_ & k & K & N). apply N.
  assert (k <= allwords)%nat; [|lia]. eapply exactly_bound; [|exact K|exact Wj].
  unfold next_s. intros a b. destruct (_ =? 0); [discriminate|]. intros F. injection F as <-. apply wrap_isword.
Qed.

(** ** The whole format *)
Definition next_f (sc : bool) (w : world) (fmt i : Z) : option Z :=
  let c := char_val sc (w_mem w (u64 (fmt + i))) in
  let i1 := wrap64 (i + 1) in
  if c =? 37 then
    let c := char_val sc (w_mem w (u64 (fmt + i1))) in
    let i2 := wrap64 (i1 + 1) in
    if (c =? 100) || (c =? 111) || (c =? 99) || (c =? 115) || (c =? 37) then Some i2 else Some (wrap64 (i2 - 1))
  else if c =? 0 then None else Some i1.
Lemma printf_ends sc fmt args : forall n i ap w w', isword i -> printf_loop n sc fmt i args ap w = Done tt w' ->
  exists k, exactly (next_f sc w fmt) k i /\ forall n', (k + allwords <= n')%nat -> printf_loop n' sc fmt i args ap w = Done tt w'.
Proof.
  induction n as [|n IH]; intros i ap w w' Wi E; [discriminate E|]. cbn [printf_loop] in E.
  apply rbind_done in E. destruct E as (c & w1 & E1 & E). injection E1 as <- <-.
  assert (ST : forall (act : R unit) i2 ap2,
    next_f sc w fmt i = Some i2 -> isword i2 -> (act >> printf_loop n sc fmt i2 args ap2)%r w = Done tt w' ->
    (forall w1, act w = Done tt w1 -> w_mem w1 = w_mem w) ->
    exists k, exactly (next_f sc w fmt) (S k) i /\ forall n', (k + allwords <= n')%nat -> (act >> printf_loop n' sc fmt i2 args ap2)%r w = Done tt w').
  { intros act i2 ap2 NX W2 EE MM. apply rbind_done in EE. destruct EE as ([] & w2 & E1 & EE). destruct (IH _ _ _ _ W2 EE) as (k & K & N).
    exists k. split.
    - eapply ex_more; [exact NX|]. assert (EQ : next_f sc w2 fmt = next_f sc w fmt) by (unfold next_f; rewrite (MM _ E1); reflexivity). rewrite <- EQ. exact K.
    - intros n' L. unfold rbind. rewrite E1. apply N. exact L. }
  unfold next_f in ST. cbv zeta in ST.
  destruct (char_val sc (w_mem w (u64 (fmt + i))) =? 37) eqn:C37.
  - apply rbind_done in E. destruct E as (c & w1 & E1 & E). injection E1 as <- <-.
    set (c2 := char_val sc (w_mem w (u64 (fmt + wrap64 (i + 1))))) in *. set (i2 := wrap64 (wrap64 (i + 1) + 1)) in *.
    assert (OPEN : forall n', printf_loop (S n') sc fmt i args ap w =
       (if c2 =? 100 then ((if args ap <? 0 then b_write 45 >> b_printd (wrap64 (- args ap)) else b_printd (args ap)) >> printf_loop n' sc fmt i2 args (S ap)) w
        else if c2 =? 111 then ((if args ap <? 0 then b_write 45 >> b_printo (wrap64 (- args ap)) else b_printo (args ap)) >> printf_loop n' sc fmt i2 args (S ap)) w
        else if c2 =? 99 then (b_write (args ap) >> printf_loop n' sc fmt i2 args (S ap)) w
        else if c2 =? 115 then (prints_loop n' sc (args ap) 0 >> printf_loop n' sc fmt i2 args (S ap)) w
        else if c2 =? 37 then (b_write 37 >> printf_loop n' sc fmt i2 args ap) w
        else (b_write 37 >> printf_loop n' sc fmt (wrap64 (i2 - 1)) args ap) w)%r).
    { intros n'. cbn [printf_loop]. unfold rbind at 1, b_char at 1, rbind at 1, peek, rret. rewrite C37. unfold rbind at 1, b_char at 1, rbind at 1, peek, rret.
      fold c2 i2. destruct (c2 =? 100), (c2 =? 111), (c2 =? 99), (c2 =? 115), (c2 =? 37); reflexivity. }
    assert (SG : forall (p : Z -> R unit) x, (forall z w w', p z w = Done tt w' -> w_mem w' = w_mem w) -> forall w1,
      (if x <? 0 then b_write 45 >> p (wrap64 (- x)) else p x)%r w = Done tt w1 -> w_mem w1 = w_mem w).
    { intros p x Hp w1 F. destruct (x <? 0); [|eapply Hp; eauto]. apply rbind_done in F. destruct F as ([] & w2 & F1 & F2).
      rewrite (Hp _ _ _ F2). eapply write_mem; eauto. }
    assert (CL : forall (X : Prop) , (exists k, exactly (fun i => next_f sc w fmt i) (S k) i /\ forall n', (k + allwords <= n')%nat -> printf_loop (S n') sc fmt i args ap w = Done tt w') ->
      exists k, exactly (next_f sc w fmt) k i /\ forall n', (k + allwords <= n')%nat -> printf_loop n' sc fmt i args ap w = Done tt w').
    { intros _ (k & K & N). exists (S k). split; [exact K|]. intros [|n'] L; [lia|]. apply N. lia. }
    apply (CL True). clear CL.
    destruct (c2 =? 100) eqn:C1; [|destruct (c2 =? 111) eqn:C2; [|destruct (c2 =? 99) eqn:C3; [|destruct (c2 =? 115) eqn:C4; [|destruct (c2 =? 37) eqn:C5]]]];
      cbn [orb] in ST.
    + eapply ST in E; [|reflexivity|apply wrap_isword|intros; eapply SG; [exact printd_mem|eassumption]]. destruct E as (k & K & N). exists k. split; [exact K|]. intros n' L. rewrite OPEN. apply N, L.
    + eapply ST in E; [|reflexivity|apply wrap_isword|intros; eapply SG; [exact printo_mem|eassumption]]. destruct E as (k & K & N). exists k. split; [exact K|]. intros n' L. rewrite OPEN. apply N, L.
    + eapply ST in E; [|reflexivity|apply wrap_isword|intros; eapply write_mem; eassumption]. destruct E as (k & K & N). exists k. split; [exact K|]. intros n' L. rewrite OPEN. apply N, L.
    + apply rbind_done in E. destruct E as ([] & w2 & E1 & E).
      assert (B : forall n', (allwords <= n')%nat -> prints_loop n' sc (args ap) 0 w = Done tt w2) by (eapply prints_bound; [|exact E1]; unfold isword; lia).
      assert (E' : (prints_loop n sc (args ap) 0 >> printf_loop n sc fmt i2 args (S ap))%r w = Done tt w') by (unfold rbind; rewrite E1; exact E).
      eapply ST in E'; [|reflexivity|apply wrap_isword|intros; eapply prints_ends; eassumption]. destruct E' as (k & K & N). exists k. split; [exact K|].
      intros n' L. rewrite OPEN. specialize (N n' L). unfold rbind in *. rewrite B by lia. rewrite E1 in N. exact N.
    + eapply ST in E; [|reflexivity|apply wrap_isword|intros; eapply write_mem; eassumption]. destruct E as (k & K & N). exists k. split; [exact K|]. intros n' L. rewrite OPEN. apply N, L.
    + eapply ST in E; [|reflexivity|apply wrap_isword|intros; eapply write_mem; eassumption]. destruct E as (k & K & N). exists k. split; [exact K|]. intros n' L. rewrite OPEN. apply N, L.
  - destruct (char_val sc (w_mem w (u64 (fmt + i))) =? 0) eqn:C0.
    + injection E as <-. exists 1%nat. split; [constructor; unfold next_f; cbv zeta; rewrite C37, C0; reflexivity|].
      intros [|n'] L; [lia|]. cbn [printf_loop]. unfold rbind at 1, b_char, rbind, peek, rret. rewrite C37, C0. reflexivity.
    + eapply ST in E; [|reflexivity|apply wrap_isword|intros; eapply write_mem; eassumption]. destruct E as (k & K & N). exists (S k). split; [exact K|].
      intros [|n'] L; [lia|]. cbn [printf_loop]. unfold rbind at 1, b_char, rbind at 1, peek, rret. rewrite C37, C0. apply N. lia.
Qed.
(** So a fixed bound, [2 * 2^64], decides: what printf does within some number of
    turns it does within that number. *)
Theorem printf_bound sc fmt args n w w' : b_printf n sc fmt args w = Done tt w' ->
  forall n', (allwords + allwords <= n')%nat -> b_printf n' sc fmt args w = Done tt w'.
Proof.
  unfold b_printf. intros E n' L. assert (W0 : isword 0) by (unfold isword; lia).
  destruct (printf_ends _ _ _ _ _ _ _ _ W0 E) as (k & K & N). apply N.
  assert (k <= allwords)%nat; [|lia]. eapply exactly_bound; [|exact K|exact W0].
  unfold next_f. cbv zeta. intros a b. repeat match goal with |- context [if ?x then _ else _] => destruct x end; intros F; inversion F; apply wrap_isword.
Qed.
