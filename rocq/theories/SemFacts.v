(** * SemFacts: facts about the reference semantics *)
From Coq Require Import List Ascii String ZArith NArith Lia Bool.
From Verif Require Import Base Lexer IR Builder Expr Syntax ParseGen SpecSem.
Import ListNotations.
Open Scope Z_scope.
Open Scope act_scope.

(** ** Memory *)
Lemma wrap64_mod z : wrap64 (z mod 2 ^ 64) = wrap64 z.
Proof. unfold wrap64. rewrite Z.add_mod_idemp_l by lia. auto. Qed.
Lemma wrap64_id z : - 2 ^ 63 <= z < 2 ^ 63 -> wrap64 z = z.
Proof. intros. unfold wrap64. rewrite Z.mod_small; lia. Qed.
Lemma wrap64_range z : - 2 ^ 63 <= wrap64 z < 2 ^ 63.
Proof. unfold wrap64. pose proof (Z.mod_pos_bound (z + 2 ^ 63) (2 ^ 64)). lia. Qed.
Lemma wrap64_idem z : wrap64 (wrap64 z) = wrap64 z.
Proof. apply wrap64_id, wrap64_range. Qed.

Lemma word_of_stored f a z : (forall x, a <= x < a + 8 -> f x = Some ((z / 256 ^ (x - a)) mod 256)) ->
  forall n off, 0 <= off -> off + Z.of_nat n <= 8 -> word_of f (a + off) n = Some ((z / 256 ^ off) mod 256 ^ Z.of_nat n).
Proof.
  intros HF. induction n as [|n IH]; intros off H1 H2.
  - cbn [word_of]. rewrite Z.pow_0_r, Z.mod_1_r. auto.
  - cbn [word_of]. rewrite HF by lia. replace (a + off + 1) with (a + (off + 1)) by lia. rewrite IH by lia.
    f_equal. replace (a + off - a) with off by lia.
    rewrite Nat2Z.inj_succ, Z.pow_succ_r by lia.
    rewrite Z.rem_mul_r by (try apply Z.pow_nonzero; lia).
    rewrite Z.pow_add_r, Z.pow_1_r by lia. rewrite Z.div_div by (try apply Z.pow_nonzero; try apply Z.pow_pos_nonneg; lia). auto.
Qed.
Lemma load_store m a z m' : store m a z = Some m' -> load m' a = Some (wrap64 z).
Proof.
  unfold store, load. intros H. destruct (word_ok m a) eqn:E; [|discriminate]. injection H as <-.
  assert (E' : word_ok (mkMem (fun x => if (a <=? x) && (x <? a + 8) then Some ((z / 256 ^ (x - a)) mod 256) else m_byte m x)
    (m_stack m) (m_static m)) a = true) by exact E. rewrite E'. cbn [m_byte].
  match goal with |- context[word_of ?f a 8] => assert (K : word_of f a 8 = Some (z mod 2 ^ 64)) end.
  { match goal with |- word_of ?f _ _ = _ => replace (word_of f a 8) with (word_of f (a + 0) 8) by (rewrite Z.add_0_r; auto) end.
    rewrite (word_of_stored _ a z); try lia.
    - rewrite Z.pow_0_r, Z.div_1_r. replace (256 ^ Z.of_nat 8) with (2 ^ 64) by reflexivity. auto.
    - intros x Hx. rewrite (proj2 (Z.leb_le a x)), (proj2 (Z.ltb_lt x (a + 8))) by lia. auto. }
  rewrite K, wrap64_mod. auto.
Qed.
Lemma word_of_other f g a n : (forall x, a <= x < a + Z.of_nat n -> f x = g x) -> word_of f a n = word_of g a n.
Proof.
  revert a. induction n as [|n IH]; intros a HF; cbn [word_of]; auto. rewrite HF by lia. rewrite IH; auto. intros x Hx. apply HF. lia.
Qed.
Lemma load_store_other m a z m' b : store m a z = Some m' -> b + 8 <= a \/ a + 8 <= b -> load m' b = load m b.
Proof.
  unfold store, load. intros H D. destruct (word_ok m a) eqn:E; [|discriminate]. injection H as <-.
  change (word_ok (mkMem (fun x => if (a <=? x) && (x <? a + 8) then Some ((z / 256 ^ (x - a)) mod 256) else m_byte m x)
    (m_stack m) (m_static m)) b) with (word_ok m b). cbn [m_byte].
  destruct (word_ok m b); auto. f_equal. rewrite (word_of_other _ (m_byte m) b 8); auto.
  intros x Hx. destruct (a <=? x) eqn:E1, (x <? a + 8) eqn:E2; cbn; auto. apply Z.leb_le in E1. apply Z.ltb_lt in E2. lia.
Qed.
Lemma load_range m a z : load m a = Some z -> - 2 ^ 63 <= z < 2 ^ 63.
Proof. unfold load. destruct (word_ok m a); [|discriminate]. destruct (word_of _ _ _); [|discriminate]. intros K. injection K as <-. apply wrap64_range. Qed.

(** ** Actions *)
Lemma andthen_assoc {W A B C} (x : act W A) (f : A -> act W B) (g : B -> act W C) m w :
  andthen (andthen x f) g m w = andthen x (fun a => andthen (f a) g) m w.
Proof. unfold andthen. destruct (x m w); auto. Qed.
Lemma andthen_ext {W A B} (x : act W A) (f g : A -> act W B) m w : (forall a m w, f a m w = g a m w) -> andthen x f m w = andthen x g m w.
Proof. intros H. unfold andthen. destruct (x m w); auto. Qed.
(** The value after ++ or -- is the value then found in the variable. *)
Lemma step_by_load {W} op p (m : memory) (w : W) : inc_op op ->
  andthen (step_by op p) (fun x => let (_, new) := x in done new) m w = andthen (step_by op p) (fun _ => load_ p) m w.
Proof.
  intros HO. unfold step_by, load_, store_, maybe, andthen, done.
  destruct (load m p) as [old|]; auto. destruct (arith op old 1) as [new|] eqn:E; auto.
  destruct (store m p new) as [m'|] eqn:S; auto. rewrite (load_store _ _ _ _ S).
  f_equal. symmetry. destruct HO as [-> | ->]; cbn in E; injection E as <-; apply wrap64_idem.
Qed.
