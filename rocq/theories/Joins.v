(** * Joins: which texts can stand side by side *)
From Coq Require Import List Ascii String ZArith NArith Lia Bool.
From Verif Require Import Base Lexer SpecLex LexerFacts IR Builder Expr Syntax SpecText SpecAccept.
Import ListNotations.
Open Scope Z_scope.

(** [pre] ends with a character that is not part of a word. *)
Definition other_end (pre : list ascii) : Prop := pre = [] \/ exists p b, pre = p ++ [b] /\ ~ ident_char b.
Lemma other_app a b : other_end a -> other_end b -> other_end (a ++ b).
Proof.
  intros HA [->|(p & c & -> & H)]; [rewrite app_nil_r; auto|]. right. exists (a ++ p), c. rewrite app_assoc. auto.
Qed.
Lemma other_last a p b : ~ ident_char b -> a = p ++ [b] -> other_end a.
Proof. intros H ->. right. exists p, b. auto. Qed.
Lemma white_other c : white c -> ~ ident_char c.
Proof. intros H. apply IsIdent_false. apply IsSpace_white in H. destruct c as [[] [] [] [] [] [] [] []]; vm_compute in H |- *; try discriminate H; reflexivity. Qed.
Lemma other_lay w : layout w -> other_end w.
Proof.
  induction 1 as [|c r Hc Hr IH|t r N Hr IH].
  - left. auto.
  - apply (other_app [c] r); [|auto]. apply (other_last _ [] c); [apply white_other, Hc|reflexivity].
  - replace ("/"%char :: "*"%char :: t ++ "*"%char :: "/"%char :: r) with (("/"%char :: "*"%char :: t ++ ["*"%char]) ++ ["/"%char] ++ r)
      by (cbn; rewrite <- app_assoc; reflexivity).
    rewrite app_assoc. apply other_app; [|auto]. eapply other_last; [|reflexivity]. apply IsIdent_false. reflexivity.
Qed.
Lemma joins_nid s u : not_starting ident_char u -> ~ joins s u.
Proof. intros H (p & c & t & d & r & _ & -> & _ & _ & D & _). exact (H D). Qed.
Lemma joins_other s p b u : s = p ++ [b] -> ~ ident_char b -> ~ joins s u.
Proof.
  intros -> H (p' & c & t & d & r & E & _ & _ & F & _).
  assert (I : In b (c :: t)).
  { destruct (@exists_last _ (c :: t)) as (t' & x & Et); [discriminate|]. rewrite Et in *. rewrite app_assoc in E. apply app_inj_tail in E.
    destruct E as [_ ->]. apply in_or_app. right. left. reflexivity. }
  rewrite Forall_forall in F. exact (H (F _ I)).
Qed.
(** The word at the end of [pre ++ s] is that at the end of [s]. *)
Lemma joins_up pre s u : other_end pre -> joins s u -> joins (pre ++ s) u.
Proof.
  intros O (p & c & t & d & r & -> & -> & Hp & H). exists (pre ++ p), c, t, d, r. rewrite app_assoc. split; [auto|]. split; [auto|]. split; [|auto].
  destruct Hp as [->|(p' & b & -> & K)]; [rewrite app_nil_r; auto|]. right. exists (pre ++ p'), b. rewrite app_assoc. auto.
Qed.
Lemma joins_down pre s u : other_end pre -> s <> [] -> joins (pre ++ s) u -> joins s u.
Proof.
  intros O NS (p & c & t & d & r & E & -> & Hp & F & H).
  destruct (app_eq_app _ _ _ _ E) as (m & [[-> Em]|[-> ->]]).
  - destruct m as [|b m].
    + cbn in Em. exists [], c, t, d, r. split; [auto|]. split; [auto|]. split; [left; auto|auto].
    + exfalso. destruct O as [O|(q & b' & Eq & K)]; [destruct p; discriminate|].
      destruct (@exists_last _ (b :: m)) as (t' & x & Et); [discriminate|]. rewrite Et in *. rewrite app_assoc in Eq. apply app_inj_tail in Eq.
      destruct Eq as [_ ->]. apply K. rewrite Em in F. rewrite Forall_forall in F. apply F. apply in_or_app. left. apply in_or_app. right. left. reflexivity.
  - exists m, c, t, d, r. split; [auto|]. split; [auto|]. split; [|auto].
    destruct m as [|b m]; [left; auto|]. right. destruct Hp as [Hp|(q & b' & Eq & K)]; [destruct pre; discriminate|].
    destruct (@exists_last _ (b :: m)) as (t' & x & Et); [discriminate|]. rewrite Et in *. rewrite app_assoc in Eq. apply app_inj_tail in Eq.
    destruct Eq as [_ ->]. exists t', b'. auto.
Qed.
Lemma joins_word s u : Forall ident_char s -> joins s u -> exists c t d r, s = c :: t /\ u = d :: r /\ ident_char d /\ (digit c -> digit d).
Proof.
  intros F (p & c & t & d & r & -> & -> & [->|(q & b & -> & K)] & _ & D & DD); [exists c, t, d, r; auto|].
  exfalso. apply K. rewrite Forall_forall in F. apply F. apply in_or_app. left. apply in_or_app. right. left. reflexivity.
Qed.
Lemma word_joins c t d r : Forall ident_char (c :: t) -> ident_char d -> (digit c -> digit d) -> joins (c :: t) (d :: r).
Proof. intros F D DD. exists [], c, t, d, r. split; [auto|]. split; [auto|]. split; [left; auto|auto]. Qed.
Lemma letter_digit c : letter c -> digit c -> False.
Proof. unfold letter, digit. cbn [In]. lia. Qed.
Lemma joins_ident x u : ident x -> (~ joins ($x) u <-> not_starting ident_char u).
Proof.
  intros (F & _ & c & t & E & LT). rewrite E in *. split; [|apply joins_nid]. intros H. destruct u as [|d r]; cbn; auto.
  intros D. apply H, word_joins; auto. intros K. destruct (letter_digit c LT K).
Qed.
Lemma joins_num z s u : tNum z s -> (~ joins s u <-> not_starting digit u).
Proof.
  intros [z' ds N D _]. assert (F : Forall ident_char ds) by (eapply Forall_impl; [|exact D]; intros a Ha; right; left; auto).
  destruct ds as [|c t]; [congruence|]. inversion D; subst. split.
  - intros H. destruct u as [|d r]; cbn; auto. intros Dd. apply H, word_joins; auto. right; left; auto.
  - intros H J. destruct (joins_word _ _ F J) as (c' & t' & d & r & E & -> & _ & K). injection E as <- <-. apply H, K. auto.
Qed.
Lemma joins_chr z s u : tChr z s -> ~ joins s u.
Proof. intros [z' s' bs I LE V]. apply (joins_other _ (QUOTE :: s') QUOTE); [reflexivity|]. apply IsIdent_false. reflexivity. Qed.
Lemma joins_str z s u : tStr z s -> ~ joins s u.
Proof. intros [s' bs I A]. apply (joins_other _ (DQUOTE :: s') DQUOTE); [reflexivity|]. apply IsIdent_false. reflexivity. Qed.

Lemma other_pre a x w : other_end x -> x <> [] -> layout w -> other_end (a ++ x ++ w).
Proof.
  intros [->|(p & b & -> & H)] NE W; [congruence|]. rewrite app_assoc. apply other_app; [|apply other_lay, W].
  right. exists (a ++ p), b. rewrite app_assoc. auto.
Qed.
Lemma xE_ne : (forall l e s, xE l e s -> s <> []) /\ (forall l s, xA l s -> exists p, s = p ++ [")"%char]).
Proof.
  apply xE_xA_ind; intros; try (destruct t; discriminate); try (cbn; discriminate); auto;
    try (match goal with H : ?s <> [] |- ?s ++ _ <> [] => destruct s; [congruence|discriminate] end).
  - destruct t as [z' ds N _ _]. exact N.
  - destruct i as (_ & _ & c & r & E & _). rewrite E. discriminate.
  - destruct i as (_ & _ & c & r & E & _). rewrite E. discriminate.
  - destruct op; try discriminate; match goal with H : incdec _ = Some _ |- _ => injection H as <- end; discriminate.
  - exists []. reflexivity.
  - exists (w1 ++ s ++ w2). rewrite <- !app_assoc. reflexivity.
  - destruct H0 as [p ->]. exists (w1 ++ s ++ w2 ++ $"," ++ p). rewrite <- !app_assoc. reflexivity.
Qed.
(** What follows a complete operand: [w] is layout after the text [s]. *)
Definition rest (s w t : list ascii) : Prop :=
  token_start t /\ not_starting (fun c => c = "("%char \/ c = "["%char) t /\
  (forall c r, t = c :: c :: r -> c <> "+"%char /\ c <> "-"%char) /\ ~ joins s (w ++ t).
Lemma rest_pre pre s w t : other_end pre -> s <> [] -> rest s w t -> rest (pre ++ s) w t.
Proof. intros O N (R1 & R2 & R3 & R4). repeat split; try apply (R3 c r H); auto. intros J. apply R4. eapply joins_down; eauto. Qed.
Lemma x_op_other op x l r : x_op op = Some (x, l, r) -> other_end ($x) /\ $x <> [].
Proof.
  intros H. destruct op as [[]|[]]; cbn in H; inversion H; subst; (split; [|discriminate]);
    (eapply other_last; [|lazymatch goal with |- ?s = _ => let u := eval cbn in s in
       lazymatch u with [?a] => instantiate (1 := a); instantiate (1 := []); reflexivity | [?a; ?b] => instantiate (1 := b); instantiate (1 := [a]); reflexivity end end]);
    apply IsIdent_false; reflexivity.
Qed.
Lemma asg_other op : other_end ($(asg_op op)) /\ $(asg_op op) <> [].
Proof.
  split; [|destruct op as [[[]|[]]|]; discriminate]. right.
  destruct op as [[[]|[]]|]; cbn;
    lazymatch goal with |- exists p b, [?x] = p ++ [b] /\ _ => exists [], x
      | |- exists p b, [?y; ?x] = p ++ [b] /\ _ => exists [y], x
      | |- exists p b, [?z; ?y; ?x] = p ++ [b] /\ _ => exists [z; y], x end;
    (split; [reflexivity|apply IsIdent_false; reflexivity]).
Qed.
Lemma chr_other c : IsIdent c = false -> other_end [c].
Proof. intros H. apply (other_last _ [] c); [apply IsIdent_false, H|reflexivity]. Qed.
