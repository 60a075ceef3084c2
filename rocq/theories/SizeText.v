(** * SizeText: a tree is not heavier than its text is long *)
From Coq Require Import List Ascii String ZArith NArith Lia Bool.
From Verif Require Import Base SpecLex IR Builder Expr Syntax SpecText SpecAccept SpecSize SizeFacts.
Import ListNotations.
Open Scope nat_scope.

Lemma item_some q s c : item q s c -> 1 <= List.length s.
Proof. intros H. destruct H; cbn [List.length]; lia. Qed.
Lemma items_long q s cs : items q s cs -> List.length cs <= List.length s.
Proof. induction 1 as [|s c ss cs I _ IH]; [lia|]. rewrite app_length. apply item_some in I. cbn [List.length]. lia. Qed.
Lemma length_string l : String.length (string_of_list_ascii l) = List.length l.
Proof. induction l; cbn; congruence. Qed.
Lemma tStr_long x s : tStr x s -> 2 + String.length x <= List.length s.
Proof. intros [t bs I _]. cbn [List.length]. rewrite app_length, length_string. apply items_long in I. cbn [List.length]. lia. Qed.
Lemma tNum_long z s : tNum z s -> 1 <= List.length s.
Proof. intros [? ds N _ _]. destruct ds; [contradiction|cbn [List.length]; lia]. Qed.
Lemma tChr_long z s : tChr z s -> 1 <= List.length s.
Proof. intros [? t bs _ _ _]. cbn [List.length]. lia. Qed.
Lemma ident_long x : ident x -> 1 <= List.length ($x).
Proof. intros (_ & _ & c & r & E & _). rewrite E. cbn [List.length]. lia. Qed.
Lemma xname_long x : xname x -> 1 <= List.length ($x).
Proof. intros (_ & _ & E). destruct ($x); [contradiction|cbn [List.length]; lia]. Qed.
Lemma incdec_long op x : incdec op = Some x -> 1 <= List.length ($x).
Proof. destruct op; intros H; inversion H; cbn; lia. Qed.
Lemma x_op_long op x l r : x_op op = Some (x, l, r) -> 1 <= List.length ($x).
Proof. destruct op as [[]|[]]; intros H; inversion H; cbn; lia. Qed.
Lemma asg_op_long op : 1 <= List.length ($(asg_op op)).
Proof. destruct op as [[[]|[]]|]; cbn; lia. Qed.

Ltac lens := rewrite ?app_length in *; cbn [List.length list_ascii_of_string] in *.
Lemma text_xE : (forall l e s, xE l e s -> wE e <= List.length s) /\ (forall l s, xA l s -> wA l <= List.length s).
Proof.
  apply xE_xA_ind; intros; cbn [wE wA];
  repeat match goal with
  | H : tNum _ _ |- _ => apply tNum_long in H
  | H : tChr _ _ |- _ => apply tChr_long in H
  | H : tStr _ _ |- _ => apply tStr_long in H
  | H : ident _ |- _ => apply ident_long in H
  | H : incdec _ = Some _ |- _ => apply incdec_long in H
  | H : x_op _ = Some _ |- _ => apply x_op_long in H
  | op : option cop |- _ => pose proof (asg_op_long op); clearbody op
  end; try (lens; lia).
  pose proof (asg_op_long op). lens. lia.
Qed.
Lemma text_xAutos l s : xAutos l s -> List.length l <= List.length s.
Proof. induction 1; lens; lia. Qed.
Lemma text_xNames c l s : xNames c l s -> S (List.length l) <= List.length s.
Proof. induction 1; repeat match goal with H : xname _ |- _ => apply xname_long in H end; lens; lia. Qed.
Lemma text_xS : (forall x s, xS x s -> wS x <= List.length s) /\ (forall l s, xL l s -> wL l <= List.length s).
Proof.
  apply xS_xL_ind; intros; cbn [wS wL];
  repeat match goal with
  | H : xE _ _ _ |- _ => apply text_xE in H
  | H : xAutos _ _ |- _ => apply text_xAutos in H
  | H : xNames _ _ _ |- _ => apply text_xNames in H
  | H : ident _ |- _ => apply ident_long in H
  | H : xname _ |- _ => apply xname_long in H
  | H : _ ++ _ = _ ++ _ |- _ => apply (f_equal (@List.length ascii)) in H
  end; lens; try lia.
Qed.
Lemma text_xIval v s : xIval v s -> wIv v <= S (List.length s).
Proof. intros H. destruct H as [| | |x s H]; cbn [wIv]; [lia..|]. apply tStr_long in H. lia. Qed.
Lemma text_xIvals l s : xIvals l s -> total wIv l <= List.length s.
Proof.
  induction 1; rewrite total_cons; repeat match goal with H : xIval _ _ |- _ => apply text_xIval in H end; rewrite ?total_nil; lens; lia.
Qed.
Lemma text_xD d s : xD d s -> wD d <= List.length s.
Proof.
  intros H. destruct H; cbn [wD];
  repeat match goal with
  | H : xname _ |- _ => apply xname_long in H
  | H : xIvals _ _ |- _ => apply text_xIvals in H
  | H : xNames _ _ _ |- _ => apply text_xNames in H
  | H : xS _ _ |- _ => apply text_xS in H
  | H : _ \/ _ |- _ => destruct H as [(H & _ & _)|[-> ->]]
  end; rewrite ?total_nil; lens; lia.
Qed.
Theorem text_xP ds s : xP ds s -> total wD ds <= List.length s.
Proof. induction 1; [rewrite total_nil; lia|]. rewrite total_cons. apply text_xD in H. lens. lia. Qed.
