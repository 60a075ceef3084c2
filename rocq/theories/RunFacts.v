(** * RunFacts: the rules of SpecRun.v agree with the functions of SpecSem.v *)
From Coq Require Import List Ascii String ZArith Bool Lia.
From Verif Require Import Base IR Builder Expr Syntax SpecTree SpecSem SimStmt SpecRun SemMono.
Import ListNotations.
Open Scope Z_scope.

Definition start_at (t : start) (s : placed) : option placed :=
  match t with None => Some s | Some (TLabel l) => at_label l s | Some (TCase z) => at_case z s end.
Lemma at_label_none x :
  (forall s sc k, at_label x (place sc k s) = None -> ~ In x (labels s)) /\
  (forall l sc k, at_label x (placeL sc k l) = None -> ~ In x (labelsL l)).
Proof.
  apply stmt_stmts_ind; intros; cbn [labels labelsL]; cbn [place placeL at_label] in *; eauto;
    rewrite ?in_app_iff; cbn [In];
    repeat match goal with
    | K : match at_label _ ?p with _ => _ end = None |- _ => destruct (at_label x p) eqn:?; [discriminate|]
    | K : (if (?l =? ?n)%string then _ else _) = None |- _ => destruct (String.eqb_spec l n); [discriminate|]
    | |- ~ (_ \/ _) => intros [?|?]; [congruence|] || intros [?|?]
    end; try congruence; solve [eauto | unfold not in *; eauto].
Qed.
Lemma at_case_none z :
  (forall s sc k, at_case z (place sc k s) = None <-> ~ In z (cases s)) /\
  (forall l sc k, at_case z (placeL sc k l) = None <-> ~ In z (casesL l)).
Proof.
  apply stmt_stmts_ind; intros; cbn [cases casesL]; cbn [place placeL at_case] in *; try tauto; auto;
    rewrite ?in_app_iff; cbn [In].
  - specialize (H sc k). destruct (Z.eqb_spec z z0) as [->|N]; [split; [discriminate|tauto]|]. rewrite H. split; [intros K [E|E]; [congruence|tauto]|tauto].
  - specialize (H sc k). specialize (H0 (after sc s) (k + litsS s)). destruct (at_case z (place sc k s)) eqn:E; [|tauto].
    split; [discriminate|]. intros K. assert (N : ~ In z (cases s)) by tauto. apply H in N. discriminate.
Qed.
Lemma at_label_some x :
  (forall s sc k, ~ In x (labels s) -> at_label x (place sc k s) = None) /\
  (forall l sc k, ~ In x (labelsL l) -> at_label x (placeL sc k l) = None).
Proof.
  apply stmt_stmts_ind; intros; cbn [labels labelsL] in *; cbn [place placeL at_label] in *; auto;
    rewrite ?in_app_iff in *; cbn [In] in *;
    repeat match goal with
    | K : forall sc k, ~ In x ?l -> _ |- _ => assert (~ In x l) by tauto; specialize (fun sc k => K sc k ltac:(assumption))
    | K : forall sc k, at_label x _ = None |- _ => rewrite K; clear K
    end; try reflexivity.
  match goal with |- context [(x =? ?l)%string] => destruct (String.eqb_spec x l); [subst; tauto|reflexivity] end.
Qed.
Lemma at_none t : t <> None ->
  (forall s sc k, start_at t (place sc k s) = None -> ~ has (labels s) (cases s) t) /\
  (forall l sc k, start_at t (placeL sc k l) = None -> ~ has (labelsL l) (casesL l) t).
Proof.
  destruct t as [[x|z]|]; [| |congruence]; intros _; split; intros s sc k E; cbn [start_at has] in *.
  - eapply at_label_none; eauto.
  - eapply at_label_none; eauto.
  - eapply at_case_none; eauto.
  - eapply at_case_none; eauto.
Qed.

Lemma no_halt {W} (H : host W) : forall l r m w z w', automatics H l r m w <> Halt z w'.
Proof.
  induction l as [|[x n] l IH]; intros r m w z w'; cbn [automatics]; [discriminate|]. unfold andthen, automatic.
  destruct (n =? -1); [|destruct (n <? 0); [discriminate|]]; cbv zeta; unfold andthen, alloc_, store_, done;
    match goal with |- context [alloc ?p ?m ?n] => destruct (alloc p m n) as [[a m2]|] end; try discriminate;
    match goal with |- context [store ?p ?m ?n] => destruct (store p m n) end; try discriminate; apply IH.
Qed.
Section Agree.
Context {W : Type}.
Variable H : host W.
Variable locals : bool.
Variable call : string -> list Z -> act W Z.
Definition result_of (o : outcome) : res W (flow * env) :=
  match o with Leaves f r m w => Val (f, r) m w | Exits z w => Halt z w end.
Definition Ex sc k s t r m w o : Prop := exists n, exec H locals call n sc k s t r m w = result_of o.
Definition ExL sc k l t r m w o : Prop := exists n, execL H locals call n sc k l t r m w = result_of o.
Lemma result_ok o : result_of o <> Limit /\ result_of o <> Stuck. Proof. destruct o; split; discriminate. Qed.
Lemma exec_more n n' sc k s t r m w o : (n <= n')%nat -> exec H locals call n sc k s t r m w = result_of o -> exec H locals call n' sc k s t r m w = result_of o.
Proof.
  intros L E. destruct (proj1 (mono_stmt H locals call call (fun x args => below_refl _) n n' L) s sc k t r m w) as [K|K]; [|congruence].
  rewrite E in K. destruct (proj1 (result_ok _) K).
Qed.
Lemma execL_more n n' sc k s t r m w o : (n <= n')%nat -> execL H locals call n sc k s t r m w = result_of o -> execL H locals call n' sc k s t r m w = result_of o.
Proof.
  intros L E. destruct (proj2 (mono_stmt H locals call call (fun x args => below_refl _) n n' L) s sc k t r m w) as [K|K]; [|congruence].
  rewrite E in K. destruct (proj1 (result_ok _) K).
Qed.

(** To start inside a statement is to start inside one of its parts; what is
    left to show are the places where something follows the part. *)
Definition noskip (o : @outcome W) : Prop := match o with Leaves Skip _ _ _ => False | _ => True end.
Lemma descend a r m w o : noskip o ->
  (forall sc k s, (forall l, s <> SBlock l) -> place sc k s = a -> Ex sc k s None r m w o) ->
  (forall sc k l, placeL sc k l = a -> ExL sc k l None r m w o) ->
  (forall sc k s rest t x, t <> None -> start_at t (place sc k s) = Some x -> a = RSeq x (placeL (after sc s) (k + litsS s) rest) -> ExL sc k (SCons s rest) t r m w o) ->
  (forall sc k e s l x, at_label l (place sc (k + lits e) s) = Some x -> a = RSeq x (place sc k (SWhile e s)) -> Ex sc k (SWhile e s) (Some (TLabel l)) r m w o) ->
  (forall s sc k t, start_at t (place sc k s) = Some a -> Ex sc k s t r m w o) /\
  (forall l sc k t, start_at t (placeL sc k l) = Some a -> ExL sc k l t r m w o).
Proof.
  intros NS A1 A2 A3 A4. apply stmt_stmts_ind.
  - intros sc k [[l|z]|] E; [discriminate..|]. apply A1; [discriminate|]. injection E. auto.
  - intros e sc k [[l|z]|] E; [discriminate..|]. apply A1; [discriminate|]. injection E. auto.
  - intros l IH sc k t E. destruct (IH sc k t E) as [n K]. exists n. exact K.
  - intros e sc k [[l|z]|] E; [discriminate..|]. apply A1; [discriminate|]. injection E. auto.
  - intros e sc k [[l|z]|] E; [discriminate..|]. apply A1; [discriminate|]. injection E. auto.
  - intros e sc k [[l|z]|] E; [discriminate..|]. apply A1; [discriminate|]. injection E. auto.
  - intros e s IH sc k [[l|z]|] E; [|discriminate|apply A1; [discriminate|]; injection E; auto].
    cbn [start_at place at_label] in E. destruct (at_label l (place sc (k + lits e) s)) eqn:E1; [|discriminate]. injection E as ->.
    destruct (IH _ _ (Some (TLabel l)) E1) as [n K]. exists n. exact K.
  - intros e s1 IH1 s2 IH2 sc k [[l|z]|] E; [|discriminate|apply A1; [discriminate|]; injection E; auto].
    cbn [start_at place at_label] in E. destruct (at_label l (place sc (k + lits e) s1)) eqn:E1.
    + injection E as ->. destruct (IH1 _ _ (Some (TLabel l)) E1) as [n K]. exists n. cbn [exec]. unfold andthen. rewrite K.
      destruct o as [[| | |] r' m' w'|z w']; try reflexivity. destruct NS.
    + destruct (IH2 _ _ (Some (TLabel l)) E) as [n K]. exists n. cbn [exec]. unfold andthen.
      rewrite (proj1 (exec_skip H locals call n)); [exact K|discriminate|]. eapply at_label_none. exact E1.
  - intros e s IH sc k [[l|z]|] E; [|discriminate|apply A1; [discriminate|]; injection E; auto].
    cbn [start_at place at_label] in E. destruct (at_label l (place sc (k + lits e) s)) eqn:E1; [|discriminate]. injection E as <-.
    eapply A4; [exact E1|reflexivity].
  - intros e s IH sc k [[l|z]|] E; [|discriminate|apply A1; [discriminate|]; injection E; auto].
    destruct (IH _ _ (Some (TLabel l)) E) as [n K]. exists n. exact K.
  - intros y s IH sc k [[l|z]|] E; [| |apply A1; [discriminate|]; injection E; auto].
    + destruct (IH _ _ (Some (TLabel l)) E) as [n K]. exists n. exact K.
    + cbn [start_at place at_case] in E. unfold Ex. cbn [exec is_case]. destruct (z =? y).
      * destruct (IH _ _ None E) as [n K]. exists n. exact K.
      * destruct (IH _ _ (Some (TCase z)) E) as [n K]. exists n. exact K.
  - intros e sc k [[l|z]|] E; [discriminate..|]. apply A1; [discriminate|]. injection E. auto.
  - intros y s IH sc k [[l|z]|] E; [| |apply A1; [discriminate|]; injection E; auto].
    + cbn [start_at place at_label] in E. unfold Ex. cbn [exec is_label]. destruct (l =? y)%string.
      * destruct (IH _ _ None E) as [n K]. exists n. exact K.
      * destruct (IH _ _ (Some (TLabel l)) E) as [n K]. exists n. exact K.
    + destruct (IH _ _ (Some (TCase z)) E) as [n K]. exists n. exact K.
  - intros sc k [[l|z]|] E; [discriminate..|]. apply A2. injection E. auto.
  - intros s IHs rest IHr sc k t E. destruct t as [t|]; [|apply A2; injection E; auto].
    assert (NT : Some t <> None) by discriminate.
    assert (E2 : (exists x, start_at (Some t) (place sc k s) = Some x /\ a = RSeq x (placeL (after sc s) (k + litsS s) rest)) \/
      start_at (Some t) (place sc k s) = None /\ start_at (Some t) (placeL (after sc s) (k + litsS s) rest) = Some a).
    { destruct t as [l|z]; cbn [start_at placeL at_label at_case] in *.
      - destruct (at_label l (place sc k s)); [left; injection E as <-; eauto|right; auto].
      - destruct (at_case z (place sc k s)); [left; injection E as <-; eauto|right; auto]. }
    destruct E2 as [(x & E1 & E2)|[E1 E2]]; [eapply A3; eauto|].
    destruct (IHr _ _ _ E2) as [n K]. exists n. cbn [execL]. unfold andthen.
    rewrite (proj1 (exec_skip H locals call n)); [exact K|exact NT|]. eapply at_none; eauto.
Qed.
Lemma goes_noskip s r m w o : goes H locals call s r m w o -> noskip o.
Proof. induction 1; cbn; auto. Qed.
Lemma execL_cons n sc k s rest t r m w : execL H locals call n sc k (SCons s rest) t r m w =
  match exec H locals call n sc k s t r m w with
  | Val (f, r') m' w' => match f with
      | Fall => execL H locals call n (after sc s) (k + litsS s) rest None r' m' w'
      | Skip => execL H locals call n (after sc s) (k + litsS s) rest t r m' w'
      | _ => Val (f, r') m' w' end
  | Halt z w' => Halt z w'
  | Stuck => Stuck
  | Limit => Limit
  end.
Proof.
  change (execL H locals call n sc k (SCons s rest) t r m w) with
   (('(f, r') <~ exec H locals call n sc k s t r ;;
      match f with
      | Fall => execL H locals call n (after sc s) (k + litsS s) rest None r'
      | Skip => execL H locals call n (after sc s) (k + litsS s) rest t r
      | _ => done (f, r')
      end)%act m w).
  unfold andthen. destruct (exec H locals call n sc k s t r m w) as [[f r'] m' w'|z w'| |]; [destruct f|..]; reflexivity.
Qed.
Definition agrees a r m w o : Prop :=
  (forall s sc k t, start_at t (place sc k s) = Some a -> Ex sc k s t r m w o) /\
  (forall l sc k t, start_at t (placeL sc k l) = Some a -> ExL sc k l t r m w o).
(** A statement that is not a sequence. *)
Lemma descend_simple a r m w o : noskip o -> (forall x y, a <> RSeq x y) ->
  (forall sc k s, (forall l, s <> SBlock l) -> place sc k s = a -> Ex sc k s None r m w o) ->
  (a = RNull -> o = Leaves Fall r m w) -> agrees a r m w o.
Proof.
  intros NS N A1 A2. apply descend; auto.
  - intros sc k [|s rest] E; [|destruct (N _ _ (eq_sym E))]. cbn in E. rewrite A2 by auto. exists 0%nat. reflexivity.
  - intros sc k s rest t x _ _ E. destruct (N _ _ E).
  - intros sc k e s l x _ E. destruct (N _ _ E).
Qed.
Lemma seq_exec x y r m w o : noskip o ->
  (forall sc k s rest t, start_at t (place sc k s) = Some x -> y = placeL (after sc s) (k + litsS s) rest -> ExL sc k (SCons s rest) t r m w o) ->
  (forall sc k e s l, at_label l (place sc (k + lits e) s) = Some x -> y = place sc k (SWhile e s) -> Ex sc k (SWhile e s) (Some (TLabel l)) r m w o) ->
  agrees (RSeq x y) r m w o.
Proof.
  intros NS A3 A4. apply descend; auto.
  - intros sc k s N E. destruct s; try discriminate. destruct (N l); auto.
  - intros sc k [|s rest] E; [discriminate|]. cbn [placeL] in E. injection E as E1 E2. apply (A3 sc k s rest None); cbn [start_at]; congruence.
  - intros sc k s rest t x' _ E1 E2. injection E2 as -> ->. eauto.
  - intros sc k e s l x' E1 E2. injection E2 as -> ->. eauto.
Qed.
Lemma while_more n e s sc k r m w : exec H locals call n sc k (SWhile e s) None r m w =
  loop n (fun r => rvalue H locals call sc r k e) (fun r => exec H locals call n sc (k + lits e) s None r) r m w.
Proof. reflexivity. Qed.
Lemma loop_body n n2 t b b2 : forall r (o : outcome) m w, (forall r, below (b r) (b2 r)) -> (n <= n2)%nat ->
  loop n t b r m w = result_of o -> loop n2 t b2 r m w = result_of o.
Proof.
  intros r o m w B L E. destruct (mono_loop (W := W) 0 0 (le_n 0) t t b b2 (fun r => below_refl _) B n n2 L r m w) as [K|K]; [|congruence].
  rewrite E in K. destruct (proj1 (result_ok _) K).
Qed.
Ltac max n1 n2 := exists (Nat.max n1 n2).
Lemma goes_exec a r m w o : goes H locals call a r m w o -> agrees a r m w o.
Proof.
  intros G. pose proof (goes_noskip _ _ _ _ _ G) as NS. revert NS. induction G; intros NS.
  - apply descend_simple; [exact NS|discriminate| |auto]. intros sc k s N E. destruct s; try discriminate; [exists 0%nat; reflexivity|destruct (N l); auto|exists 0%nat; reflexivity].
  - apply descend_simple; [exact NS|discriminate| |discriminate]. intros sc' k' s N E. destruct s; try discriminate; [|destruct (N l); auto].
    injection E as -> -> ->. exists 0%nat. cbn [exec]. unfold andthen. rewrite H0. reflexivity.
  - apply descend_simple; [exact NS|discriminate| |discriminate]. intros sc' k' s N E. destruct s; try discriminate; [destruct (N l0); auto|].
    injection E as ->. exists 0%nat. cbn [exec]. unfold andthen. rewrite H0. reflexivity.
  - (* seq *) apply seq_exec; [exact NS| |].
    + intros sc k s rest t E1 ->. destruct (IHG1 Logic.I) as [X1 _]. destruct (IHG2 NS) as [_ X2].
      destruct (X1 _ _ _ _ E1) as [n1 K1]. destruct (X2 rest _ _ None eq_refl) as [n2 K2]. max n1 n2. rewrite execL_cons.
      rewrite (exec_more n1 (Nat.max n1 n2) _ _ _ _ _ _ _ _ (Nat.le_max_l _ _) K1). cbn [result_of]. apply (execL_more n2); [apply Nat.le_max_r|exact K2].
    + intros sc k e s l E1 ->. destruct (IHG1 Logic.I) as [X1 _]. destruct (IHG2 NS) as [X2 _].
      destruct (X1 _ _ _ (Some (TLabel l)) E1) as [n1 K1]. destruct (X2 (SWhile e s) _ _ None eq_refl) as [n2 K2]. max n1 n2. cbn [exec]. unfold andthen.
      rewrite (exec_more n1 (Nat.max n1 n2) _ _ _ _ _ _ _ _ (Nat.le_max_l _ _) K1). cbn [result_of].
      apply (exec_more n2 (Nat.max n1 n2)) in K2; [|apply Nat.le_max_r]. rewrite while_more in K2. exact K2.
  - apply seq_exec; [exact NS| |].
    + intros sc k s rest t E1 ->. destruct (IHG NS) as [X1 _]. destruct (X1 _ _ _ _ E1) as [n1 K1]. exists n1. rewrite execL_cons.
      rewrite K1. destruct o as [[| | |] r' m' w'|z w']; cbn in *; try reflexivity; try tauto.
    + intros sc k e s l E1 ->. destruct (IHG NS) as [X1 _]. destruct (X1 _ _ _ (Some (TLabel l)) E1) as [n1 K1]. exists n1. cbn [exec]. unfold andthen.
      rewrite K1. destruct o as [[| | |] r' m' w'|z w']; cbn in *; try reflexivity; try tauto.
  - (* if *) apply descend_simple; [exact NS|discriminate| |discriminate]. destruct (IHG NS) as [X _]. intros sc' k' s N E. destruct s; try discriminate; [destruct (N l); auto| |];
      cbn [place] in E; injection E as -> -> -> <- <-.
    + destruct (v =? 0) eqn:EV.
      * inversion G; subst; [|discriminate]. exists 0%nat. cbn [exec]. unfold andthen. rewrite H0, EV. reflexivity.
      * destruct (X _ _ _ None eq_refl) as [n K]. exists n. cbn [exec]. unfold andthen. rewrite H0, EV. exact K.
    + destruct (v =? 0) eqn:EV.
      * destruct (X _ _ _ None eq_refl) as [n K]. exists n. cbn [exec]. unfold andthen. rewrite H0, EV. exact K.
      * destruct (X _ _ _ None eq_refl) as [n K]. exists n. cbn [exec]. unfold andthen. rewrite H0, EV. exact K.
  - (* while, end *) apply descend_simple; [exact NS|discriminate| |discriminate]. intros sc' k' s N E. destruct s; try discriminate; [destruct (N l); auto|].
    cbn [place] in E. injection E as -> -> -> <-. exists 1%nat. rewrite while_more. cbn [loop]. unfold andthen. rewrite H0. reflexivity.
  - (* while *) apply descend_simple; [exact NS|discriminate| |discriminate]. destruct (IHG1 Logic.I) as [X1 _]. destruct (IHG2 NS) as [X2 _].
    intros sc' k' s N E. destruct s; try discriminate; [destruct (N l); auto|].
    destruct (X2 _ _ _ None (f_equal Some E)) as [n2 K2].
    cbn [place] in E. injection E as -> -> -> <-. destruct (X1 _ _ _ None eq_refl) as [n1 K1].
    exists (S (Nat.max n1 n2)). rewrite while_more. cbn [loop]. unfold andthen. rewrite H0. destruct (Z.eqb_spec v 0); [contradiction|].
    rewrite (exec_more n1 (S (Nat.max n1 n2)) _ _ _ _ _ _ _ _ (Nat.le_trans _ _ _ (Nat.le_max_l _ _) (Nat.le_succ_diag_r _)) K1). cbn [result_of].
    rewrite while_more in K2. eapply loop_body; [|apply Nat.le_max_r|exact K2].
    intros r'. apply (proj1 (mono_stmt H locals call call (fun x args => below_refl _) n2 (S (Nat.max n1 n2)) ltac:(lia))).
  - apply descend_simple; [exact NS|discriminate| |discriminate]. destruct (IHG NS) as [X1 _].
    intros sc' k' s N E. destruct s; try discriminate; [destruct (N l); auto|].
    cbn [place] in E. injection E as -> -> -> <-. destruct (X1 _ _ _ None eq_refl) as [n1 K1].
    exists (S n1). rewrite while_more. cbn [loop]. unfold andthen. rewrite H0. destruct (Z.eqb_spec v 0); [contradiction|].
    rewrite (exec_more n1 (S n1) _ _ _ _ _ _ _ _ (Nat.le_succ_diag_r _) K1). destruct o as [[| | |] r' m' w'|z w']; cbn in *; try reflexivity; try tauto.
  - (* switch *) apply descend_simple; [exact NS|discriminate| |discriminate]. destruct (IHG NS) as [X1 _].
    intros sc' k' s N E. destruct s; try discriminate; [destruct (N l); auto|].
    cbn [place] in E. injection E as -> -> -> <-. destruct (X1 _ _ _ (Some (TCase v)) H1) as [n1 K1].
    exists n1. cbn [exec]. unfold andthen. rewrite H0. destruct (existsb (Z.eqb v) (cases s)) eqn:EX; [exact K1|].
    exfalso. assert (A : at_case v (place sc (k + lits e) s) = None); [|congruence]. apply at_case_none. intros A.
    assert (B : existsb (Z.eqb v) (cases s) = true); [|congruence]. apply existsb_exists. exists v. split; auto. apply Z.eqb_refl.
  - apply descend_simple; [exact NS|discriminate| |discriminate]. intros sc' k' s N E. destruct s; try discriminate; [destruct (N l); auto|].
    cbn [place] in E. injection E as -> -> -> <-. exists 0%nat. cbn [exec]. unfold andthen. rewrite H0. destruct (existsb (Z.eqb v) (cases s)) eqn:EX; [|reflexivity].
    exfalso. apply existsb_exists in EX. destruct EX as (y & A & B). apply Z.eqb_eq in B. subst y. eapply at_case_none in H1. contradiction.
  - apply descend_simple; [exact NS|discriminate| |discriminate]. destruct (IHG NS) as [X1 _]. intros sc' k' s N E. destruct s; try discriminate; [destruct (N l); auto|].
    cbn [place] in E. injection E as -> <-. destruct (X1 _ _ _ None eq_refl) as [n K]. exists n. exact K.
  - apply descend_simple; [exact NS|discriminate| |discriminate]. destruct (IHG NS) as [X1 _]. intros sc' k' s N E. destruct s; try discriminate; [destruct (N l0); auto|].
    cbn [place] in E. injection E as -> <-. destruct (X1 _ _ _ None eq_refl) as [n K]. exists n. exact K.
  - apply descend_simple; [exact NS|discriminate| |discriminate]. intros sc' k' s N E. destruct s; try discriminate; [destruct (N l0); auto|].
    injection E as ->. exists 0%nat. reflexivity.
  - apply descend_simple; [exact NS|discriminate| |discriminate]. intros sc' k' s N E. destruct s; try discriminate; [destruct (N l); auto|].
    injection E as -> -> ->. exists 0%nat. cbn [exec]. unfold andthen. rewrite H0. reflexivity.
  - apply descend_simple; [exact NS|discriminate| |discriminate]. intros sc' k' s N E. destruct s; try discriminate; [destruct (N l); auto|].
    injection E as -> -> ->. exists 0%nat. reflexivity.
  - (* exit *) apply descend_simple; [exact NS| | |].
    + intros x y ->. discriminate.
    + intros sc' k' s' N E. destruct s'; try (destruct (N l); auto; fail); cbn [place] in E; subst s; cbn [begins] in H0; try discriminate.
      * injection H0 as <- <- <-. exists 0%nat. cbn [exec]. unfold andthen. rewrite H1. reflexivity.
      * destruct e0; [|discriminate]. injection H0 as <- <- <-. exists 0%nat. cbn [exec]. unfold andthen. rewrite H1. reflexivity.
      * injection H0 as <- <- <-. exists 0%nat. cbn [exec]. unfold andthen. rewrite H1. reflexivity.
      * injection H0 as <- <- <-. exists 0%nat. cbn [exec]. unfold andthen. rewrite H1. reflexivity.
      * injection H0 as <- <- <-. exists 1%nat. rewrite while_more. cbn [loop]. unfold andthen. rewrite H1. reflexivity.
      * injection H0 as <- <- <-. exists 0%nat. cbn [exec]. unfold andthen. rewrite H1. reflexivity.
    + intros ->. discriminate.
Qed.

Definition answer (x : xres W) : res W Z := match x with XRet z m w => Val z m w | XExit z w => Halt z w end.
Lemma run_more n n' sc k body t r m w x : (n <= n')%nat -> run H locals call n n sc k body t r m w = answer x -> run H locals call n' n' sc k body t r m w = answer x.
Proof.
  intros L E. destruct (mono_run H locals call call (fun x args => below_refl _) n n' L sc k body n n' L t r m w) as [K|K]; [|congruence].
  rewrite E in K. destruct x; discriminate.
Qed.
Theorem completes_run sc k body s r m w x : completes H locals call (place sc k body) s r m w x ->
  forall t, start_at t (place sc k body) = Some s -> exists n, run H locals call n n sc k body t r m w = answer x.
Proof.
  assert (RS : forall n n2 t r m w, run H locals call n (S n2) sc k body t r m w =
    ('(f, r) <~ exec H locals call n sc k body t r ;;
     match f with Fall => done 0 | Return z => done z | Jump l => run H locals call n n2 sc k body (Some (TLabel l)) r | Skip => stuck end)%act m w) by reflexivity.
  induction 1 as [s r m w r' m' w' G|s r m w z r' m' w' G|s r m w z w' G|s r m w l r' m' w' s' x G AL _ IH]; intros t E;
    apply goes_exec in G; destruct G as [G _]; destruct (G _ _ _ _ E) as [n K].
  - exists (S n). rewrite RS. unfold andthen. rewrite (exec_more n (S n) _ _ _ _ _ _ _ _ (Nat.le_succ_diag_r _) K). reflexivity.
  - exists (S n). rewrite RS. unfold andthen. rewrite (exec_more n (S n) _ _ _ _ _ _ _ _ (Nat.le_succ_diag_r _) K). reflexivity.
  - exists (S n). rewrite RS. unfold andthen. rewrite (exec_more n (S n) _ _ _ _ _ _ _ _ (Nat.le_succ_diag_r _) K). reflexivity.
  - destruct (IH (Some (TLabel l)) AL) as [n2 K2]. exists (S (Nat.max n n2)). rewrite RS. unfold andthen.
    rewrite (exec_more n (S (Nat.max n n2)) _ _ _ _ _ _ _ _ (Nat.le_trans _ _ _ (Nat.le_max_l _ _) (Nat.le_succ_diag_r _)) K). cbn [result_of].
    destruct (mono_run H locals call call (fun x args => below_refl _) n2 (S (Nat.max n n2)) ltac:(lia) sc k body n2 (Nat.max n n2) (Nat.le_max_r _ _) (Some (TLabel l)) r' m' w') as [B|B]; [|congruence].
    rewrite K2 in B. destruct x; discriminate.
Qed.

(** Conversely, what the functions compute is derived by the rules. *)
Lemma result_cases (x : res W (flow * env)) o : x = result_of o ->
  (exists f r m w, x = Val (f, r) m w /\ o = Leaves f r m w) \/ (exists z w, x = Halt z w /\ o = Exits z w).
Proof. intros ->. destruct o as [f r m w|z w]; [left; exists f, r, m, w|right; exists z, w]; auto. Qed.
Lemma loop_goes n s : (forall sc k r m w o, exec H locals call n sc k s None r m w = result_of o -> goes H locals call (place sc k s) r m w o) ->
  forall n' sc k e r m w o, loop n' (fun r => rvalue H locals call sc r k e) (fun r => exec H locals call n sc (k + lits e) s None r) r m w = result_of o ->
  goes H locals call (RWhile sc k e (place sc (k + lits e) s)) r m w o.
Proof.
  intros IH. induction n' as [|n' IHn]; intros sc k e r m w o E; [destruct o; discriminate|]. cbn [loop] in E. unfold andthen in E.
  destruct (rvalue H locals call sc r k e m w) as [v m1 w1|z w1| |] eqn:EV; [| |destruct o; discriminate..].
  2: { destruct o; [discriminate|]. injection E as <- <-. eapply go_exit; [reflexivity|exact EV]. }
  destruct (Z.eqb_spec v 0) as [->|NV]; [destruct o; [|discriminate]; injection E as <- <- <- <-; apply go_while_end; exact EV|].
  destruct (exec H locals call n sc (k + lits e) s None r m1 w1) as [[f r2] m2 w2|z w2| |] eqn:EX; [| |destruct o; discriminate..].
  - pose proof (IH _ _ _ _ _ (Leaves f r2 m2 w2) EX) as G. pose proof (goes_noskip _ _ _ _ _ G) as NS.
    destruct f; try (destruct o; [|discriminate]; injection E as <- <- <- <-; eapply go_while_left; eauto; fail).
    + eapply go_while; eauto.
    + destruct NS.
  - destruct o; [discriminate|]. injection E as <- <-. eapply go_while_left; [exact EV|exact NV| |intros []]. exact (IH _ _ _ _ _ (Exits _ _) EX).
Qed.
Lemma exec_goes n :
  (forall s sc k t r m w o a, start_at t (place sc k s) = Some a -> exec H locals call n sc k s t r m w = result_of o -> goes H locals call a r m w o) /\
  (forall l sc k t r m w o a, start_at t (placeL sc k l) = Some a -> execL H locals call n sc k l t r m w = result_of o -> goes H locals call a r m w o).
Proof.
  apply stmt_stmts_ind.
  - intros sc k [[l|z]|] r m w o a A E; try discriminate. injection A as <-. cbn in E. destruct o; [|discriminate]. injection E as <- <- <- <-. apply go_null.
  - intros e sc k [[l|z]|] r m w o a A E; try discriminate. injection A as <-. cbn [exec] in E. unfold andthen in E.
    destruct (rvalue H locals call sc r k e m w) as [v m1 w1|z w1| |] eqn:EV; [destruct o; [|discriminate]|destruct o; [discriminate|]|destruct o; discriminate..].
    + injection E as <- <- <- <-. eapply go_expr. exact EV.
    + injection E as <- <-. eapply go_exit; [reflexivity|exact EV].
  - intros l IH sc k t r m w o a A E. eapply IH; eauto.
  - intros oe sc k [[l|z]|] r m w o a A E; try discriminate. injection A as <-. cbn [exec] in E. destruct oe as [e|].
    + unfold andthen in E. destruct (rvalue H locals call sc r k e m w) as [v m1 w1|z w1| |] eqn:EV; [destruct o; [|discriminate]|destruct o; [discriminate|]|destruct o; discriminate..].
      * injection E as <- <- <- <-. eapply go_return. exact EV.
      * injection E as <- <-. eapply go_exit; [reflexivity|exact EV].
    + destruct o; [|discriminate]. injection E as <- <- <- <-. apply go_return0.
  - intros l sc k [[l0|z]|] r m w o a A E; try discriminate. injection A as <-. cbn [exec] in E. unfold andthen in E.
    destruct (automatics H l r m w) as [v m1 w1|z w1| |] eqn:EV; [destruct o; [|discriminate]|destruct (no_halt _ _ _ _ _ _ _ EV)|destruct o; discriminate..].
    injection E as <- <- <- <-. eapply go_auto. exact EV.
  - intros l sc k [[l0|z]|] r m w o a A E; try discriminate. injection A as <-. cbn in E. destruct o; [|discriminate]. injection E as <- <- <- <-. apply go_null.
  - (* if *) intros e s IH sc k [[l|z]|] r m w o a A E; [|discriminate|].
    + cbn [start_at place at_label] in A. destruct (at_label l (place sc (k + lits e) s)) eqn:E1; [|discriminate]. injection A as ->.
      eapply (IH _ _ (Some (TLabel l))); eauto.
    + injection A as <-. cbn [exec] in E. unfold andthen in E.
      destruct (rvalue H locals call sc r k e m w) as [v m1 w1|z w1| |] eqn:EV; [|destruct o; [discriminate|]|destruct o; discriminate..].
      * eapply go_if; [exact EV|]. destruct (v =? 0); [destruct o; [|discriminate]; injection E as <- <- <- <-; apply go_null|]. eapply (IH _ _ None); [reflexivity|exact E].
      * injection E as <- <-. eapply go_exit; [reflexivity|exact EV].
  - intros e s1 IH1 s2 IH2 sc k [[l|z]|] r m w o a A E; [|discriminate|].
    + cbn [start_at place at_label] in A. cbn [exec] in E. unfold andthen in E. destruct (at_label l (place sc (k + lits e) s1)) as [a'|] eqn:E1.
      * injection A as ->. destruct (exec H locals call n sc (k + lits e) s1 (Some (TLabel l)) r m w) as [[f r'] m' w'|z w'| |] eqn:EX; [| |destruct o; discriminate..].
        -- pose proof (IH1 _ _ (Some (TLabel l)) _ _ _ (Leaves f r' m' w') _ E1 EX) as G. pose proof (goes_noskip _ _ _ _ _ G) as NS.
           destruct f; try destruct NS; destruct o; try discriminate; injection E as <- <- <- <-; exact G.
        -- destruct o; [discriminate|]. injection E as <- <-. exact (IH1 _ _ (Some (TLabel l)) _ _ _ (Exits _ _) _ E1 EX).
      * rewrite (proj1 (exec_skip H locals call n)) in E; [|discriminate|eapply at_label_none; exact E1]. eapply (IH2 _ _ (Some (TLabel l))); eauto.
    + injection A as <-. cbn [exec] in E. unfold andthen in E.
      destruct (rvalue H locals call sc r k e m w) as [v m1 w1|z w1| |] eqn:EV; [|destruct o; [discriminate|]|destruct o; discriminate..].
      * eapply go_if; [exact EV|]. destruct (v =? 0); [eapply (IH2 _ _ None)|eapply (IH1 _ _ None)]; eauto; reflexivity.
      * injection E as <- <-. eapply go_exit; [reflexivity|exact EV].
  - (* while *) intros e s IH sc k [[l|z]|] r m w o a A E; [|discriminate|].
    + cbn [start_at place at_label] in A. destruct (at_label l (place sc (k + lits e) s)) as [a'|] eqn:E1; [|discriminate]. injection A as <-.
      cbn [exec] in E. unfold andthen in E. destruct (exec H locals call n sc (k + lits e) s (Some (TLabel l)) r m w) as [[f r'] m' w'|z w'| |] eqn:EX; [| |destruct o; discriminate..].
      * pose proof (IH _ _ (Some (TLabel l)) _ _ _ (Leaves f r' m' w') _ E1 EX) as G. pose proof (goes_noskip _ _ _ _ _ G) as NS.
        destruct f; try destruct NS; try (destruct o; [|discriminate]; injection E as <- <- <- <-; eapply go_seq_left; [exact G|intros []]; fail).
        eapply go_seq; [exact G|]. eapply loop_goes; [|exact E]. intros. eapply (IH _ _ None); eauto. reflexivity.
      * destruct o; [discriminate|]. injection E as <- <-. eapply go_seq_left; [|intros []]. exact (IH _ _ (Some (TLabel l)) _ _ _ (Exits _ _) _ E1 EX).
    + injection A as <-. rewrite while_more in E. eapply loop_goes; [|exact E]. intros. eapply (IH _ _ None); eauto. reflexivity.
  - (* switch *) intros e s IH sc k [[l|z]|] r m w o a A E; [|discriminate|].
    + eapply (IH _ _ (Some (TLabel l))); [exact A|exact E].
    + injection A as <-. cbn [exec] in E. unfold andthen in E.
      destruct (rvalue H locals call sc r k e m w) as [v m1 w1|z w1| |] eqn:EV; [|destruct o; [discriminate|]|destruct o; discriminate..].
      * destruct (existsb (Z.eqb v) (cases s)) eqn:EX.
        -- destruct (at_case v (place sc (k + lits e) s)) as [b|] eqn:AC.
           ++ eapply go_switch; [exact EV|exact AC|]. eapply (IH _ _ (Some (TCase v))); eauto.
           ++ exfalso. apply existsb_exists in EX. destruct EX as (y & A & B). apply Z.eqb_eq in B. subst y. apply at_case_none in AC. contradiction.
        -- destruct o; [|discriminate]. injection E as <- <- <- <-. eapply go_switch_none; [exact EV|]. apply at_case_none. intros A.
           assert (B : existsb (Z.eqb v) (cases s) = true); [|congruence]. apply existsb_exists. exists v. split; auto. apply Z.eqb_refl.
      * injection E as <- <-. eapply go_exit; [reflexivity|exact EV].
  - intros y s IH sc k [[l|z]|] r m w o a A E.
    + eapply (IH _ _ (Some (TLabel l))); [exact A|exact E].
    + cbn [start_at place at_case] in A. cbn [exec is_case] in E. destruct (z =? y).
      * injection A as <-. eapply (IH _ _ None); eauto. reflexivity.
      * eapply (IH _ _ (Some (TCase z))); eauto.
    + injection A as <-. cbn [place]. apply go_case. eapply (IH _ _ None); eauto. reflexivity.
  - intros x sc k [[l0|z]|] r m w o a A E; try discriminate. injection A as <-. cbn in E. destruct o; [|discriminate]. injection E as <- <- <- <-. apply go_goto.
  - intros y s IH sc k [[l|z]|] r m w o a A E.
    + cbn [start_at place at_label] in A. cbn [exec is_label] in E. destruct (l =? y)%string.
      * injection A as <-. eapply (IH _ _ None); eauto. reflexivity.
      * eapply (IH _ _ (Some (TLabel l))); eauto.
    + eapply (IH _ _ (Some (TCase z))); [exact A|exact E].
    + injection A as <-. cbn [place]. apply go_label. eapply (IH _ _ None); eauto. reflexivity.
  - intros sc k [[l|z]|] r m w o a A E; try discriminate. injection A as <-. cbn in E. destruct o; [|discriminate]. injection E as <- <- <- <-. apply go_null.
  - intros s IH1 rest IH2 sc k t r m w o a A E. rewrite execL_cons in E.
    destruct (start_at t (place sc k s)) as [a'|] eqn:E1.
    + assert (EA : a = RSeq a' (placeL (after sc s) (k + litsS s) rest)).
      { destruct t as [[l|z]|]; cbn [start_at placeL at_label at_case] in *; try rewrite E1 in A; congruence. }
      subst a. destruct (exec H locals call n sc k s t r m w) as [[f r'] m' w'|z w'| |] eqn:EX; [| |destruct o; discriminate..].
      * pose proof (IH1 _ _ t _ _ _ (Leaves f r' m' w') _ E1 EX) as G. pose proof (goes_noskip _ _ _ _ _ G) as NS.
        destruct f; try destruct NS; try (destruct o; [|discriminate]; injection E as <- <- <- <-; eapply go_seq_left; [exact G|intros []]; fail).
        eapply go_seq; [exact G|]. eapply (IH2 _ _ None); eauto. reflexivity.
      * destruct o; [discriminate|]. injection E as <- <-. eapply go_seq_left; [|intros []]. exact (IH1 _ _ t _ _ _ (Exits _ _) _ E1 EX).
    + assert (NT : t <> None) by (intros ->; discriminate).
      rewrite (proj1 (exec_skip H locals call n)) in E; [|exact NT|eapply at_none; eauto]. eapply IH2; [|exact E].
      destruct t as [[l|z]|]; cbn [start_at placeL at_label at_case] in *; try rewrite E1 in A; congruence.
Qed.
Theorem run_completes sc k body n0 x : forall n t r m w s, start_at t (place sc k body) = Some s -> run H locals call n0 n sc k body t r m w = answer x ->
  completes H locals call (place sc k body) s r m w x.
Proof.
  induction n as [|n IH]; intros t r m w s A E; [destruct x; discriminate|].
  change (run H locals call n0 (S n) sc k body t r m w) with
    (('(f, r) <~ exec H locals call n0 sc k body t r ;;
     match f with Fall => done 0 | Return z => done z | Jump l => run H locals call n0 n sc k body (Some (TLabel l)) r | Skip => stuck end)%act m w) in E.
  unfold andthen in E. destruct (exec H locals call n0 sc k body t r m w) as [[f r'] m' w'|z w'| |] eqn:EX; [| |destruct x; discriminate..].
  - pose proof (proj1 (exec_goes n0) _ _ _ _ _ _ _ (Leaves f r' m' w') _ A EX) as G. destruct f.
    + destruct x; [|discriminate]. injection E as <- <- <-. eapply co_end. exact G.
    + destruct (at_label l (place sc k body)) as [s'|] eqn:AL.
      * eapply co_goto; [exact G|exact AL|]. eapply (IH (Some (TLabel l))); [exact AL|exact E].
      * exfalso. destruct n; [destruct x; discriminate|].
        change (run H locals call n0 (S n) sc k body (Some (TLabel l)) r' m' w') with
          (('(f, r) <~ exec H locals call n0 sc k body (Some (TLabel l)) r' ;;
           match f with Fall => done 0 | Return z => done z | Jump l => run H locals call n0 n sc k body (Some (TLabel l)) r | Skip => stuck end)%act m' w') in E.
        unfold andthen in E. rewrite (proj1 (exec_skip H locals call n0)) in E; [destruct x; discriminate|discriminate|eapply at_label_none; exact AL].
    + destruct x; [|discriminate]. injection E as <- <- <-. eapply co_return. exact G.
    + destruct x; discriminate.
  - destruct x; [discriminate|]. injection E as <- <-. eapply co_exit. exact (proj1 (exec_goes n0) _ _ _ _ _ _ _ (Exits _ _) _ A EX).
Qed.
End Agree.
