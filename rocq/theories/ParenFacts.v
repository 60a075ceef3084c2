(** * ParenFacts: the code of a program with more parentheses *)
From Coq Require Import List Ascii String ZArith NArith Lia Bool.
From Verif Require Import Base Lexer IR Builder Expr Stmt Decl Syntax SpecParen.
Import ListNotations.
Open Scope Z_scope.

(** Where the first succeeds the second gives the same. *)
Definition le {A} (m m' : C A) : Prop := forall s a s', m s = Ok a s' -> m' s = Ok a s'.
Lemma le_refl {A} (m : C A) : le m m.
Proof. intros s a s' H. exact H. Qed.
Lemma le_bind {A B} (m m' : C A) (k k' : A -> C B) : le m m' -> (forall a, le (k a) (k' a)) -> le (bind m k) (bind m' k').
Proof.
  intros H K s b s' E. unfold bind in *. destruct (m s) as [a s1| |] eqn:G; try discriminate. rewrite (H _ _ _ G). exact (K a _ _ _ E).
Qed.
Lemma le_err {A} t (m : C A) : le (errorf t) m.
Proof. intros s a s' H. discriminate H. Qed.

Section G.
Variable chk : bool.
Local Notation gen := (gen chk).
Local Notation genR := (genR chk).

Lemma le_rv {B} q q' a a' (k k' : value -> C B) : le (genR q a) (genR q' a') -> (forall v, le (k v) (k' v)) ->
  le (bind (gen q a) (fun x => let (v, l) := x in bind (rval v l) k)) (bind (gen q' a') (fun x => let (v, l) := x in bind (rval v l) k')).
Proof.
  intros H K s b s' E. unfold genR, bind in *. specialize (H s). cbn beta in H.
  destruct (gen q a s) as [[v l] s1| |] eqn:G; try discriminate. destruct (rval v l s1) as [w s2| |] eqn:R; try discriminate.
  specialize (H _ _ eq_refl). destruct (gen q' a' s) as [[v' l'] s1'| |] eqn:G'; try discriminate. rewrite H. exact (K w _ _ _ E).
Qed.
Lemma le_lv {B} q q' a a' (k k' : value -> C B) t t' : le (gen q a) (gen q' a') -> (forall v, le (k v) (k' v)) ->
  le (bind (gen q a) (fun x => let (v, l) := x in if l : bool then k v else errorf t))
     (bind (gen q' a') (fun x => let (v, l) := x in if l : bool then k' v else errorf t')).
Proof. intros H K. apply le_bind; [exact H|]. intros [v []]; [apply K|apply le_err]. Qed.
Lemma gen_genR q q' e e' : le (gen q e) (gen q' e') -> le (genR q e) (genR q' e').
Proof. intros H. apply le_bind; [exact H|]. intros [v l]. apply le_refl. Qed.
Lemma genR_paren q e : le (genR false e) (genR q (EParen e)).
Proof.
  intros s a s' H. unfold genR, bind in *. cbn [Syntax.gen]. unfold bind. destruct (gen false e s) as [[v l] s1| |]; try discriminate. rewrite H. reflexivity.
Qed.

Ltac lego := repeat first [apply le_refl | assumption | apply le_rv; [solve [auto]|intro] | apply le_bind; [|intro] ].

Lemma le_in :
  (forall e e', inE e e' -> forall q q', (q' = true -> q = true) -> le (gen q e) (gen q' e')) /\
  (forall e e', roundE e e' -> forall q q', (q' = true -> q = true) -> le (genR q e) (genR q' e')) /\
  (forall l l', inA l l' -> le (genArgs chk l) (genArgs chk l')).
Proof.
  apply in_ind3; intros; cbn [Syntax.gen Syntax.genArgs]; try apply le_refl.
  - unfold genVar. apply le_bind; [apply le_refl|]. intros [a|]; [apply le_refl|].
    destruct q; [apply le_err|]. destruct q'; [discriminate (H eq_refl)|]. apply le_refl.
  - lego.
  - lego.
  - apply le_bind; [apply le_refl|]. intros [v l0]. lego.
  - lego.
  - apply le_lv; auto. intros; lego.
  - apply le_lv; auto. intros; lego.
  - lego.
  - lego.
  - lego.
  - apply le_lv; auto. intros; lego.
  - lego.
  - lego.
  - apply le_lv; auto. intros; lego.
  - apply gen_genR; auto.
  - intros s v s' E. apply genR_paren. apply (H q false); [discriminate|exact E].
  - lego.
Qed.

Ltac sgo := repeat first [apply le_refl | solve [auto] | apply (proj1 (proj2 le_in)); [assumption|auto] | apply le_bind; [|intro] ].
Lemma le_inS :
  (forall s s', inS s s' -> forall sw, le (genS chk s sw) (genS chk s' sw)) /\
  (forall l l', inL l l' -> forall sw, le (genL chk l sw) (genL chk l' sw)).
Proof.
  apply inS_ind2; intros; cbn [Syntax.genS Syntax.genL]; try apply le_refl; sgo.
  destruct sw as [[id vals]|]; [|apply le_refl]. sgo.
Qed.
Lemma le_inD d d' : inD d d' -> le (genD chk d) (genD chk d').
Proof. intros [| |x ps s s' H]; try apply le_refl. unfold genD. sgo. apply (proj1 le_inS). exact H. Qed.
Lemma le_inP ds ds' : more_parentheses ds ds' -> le (genP chk ds) (genP chk ds').
Proof. induction 1 as [|d d' r r' D _ IH]; [apply le_refl|]. cbn [genP]. apply le_bind; [apply le_inD, D|intro; exact IH]. Qed.
Lemma le_generate ds ds' m : more_parentheses ds ds' -> generate chk ds = Ok m tt -> generate chk ds' = Ok m tt.
Proof.
  intros H E. unfold generate in *. destruct (genP chk ds _) as [a s| |] eqn:G; try discriminate. rewrite (le_inP _ _ H _ _ _ G). exact E.
Qed.
End G.
