(** * OrderFacts: acceptance and meaning in another order *)
From Coq Require Import List Ascii String ZArith Lia Bool Permutation.
From Verif Require Import Base IR Expr Syntax SpecStatic InvSym SpecSem SemShift SimFun SpecOrder.
Import ListNotations.
Open Scope Z_scope.

(** ** Acceptance *)
Section Any.
Variables F G : list string.
Hypothesis DJ : forall x, In x F -> ~ In x G.
Definition within (v : senv) : Prop := incl (s_funs v) F /\ incl (s_globs v) G.
Definition twin (v v' : senv) : Prop := s_locs v = s_locs v' /\ s_exts v = s_exts v' /\ within v'.
(** The check goes through from other functions and variables of the file too. *)
Definition any (f : senv -> option senv) : Prop := forall v v1 v', f v = Some v1 -> within v1 -> twin v v' ->
  within v /\ exists v1', f v' = Some v1' /\ twin v1 v1'.
Lemma any_bind f g : any f -> any g -> any (fun v => opt_bind (f v) g).
Proof.
  intros A B v v2 v' E W T. destruct (f v) as [v1|] eqn:E1; [|discriminate]. cbn [opt_bind] in E.
  assert (W1 : within v1).
  { destruct (B v1 v2 (mkEnv (s_locs v1) (s_exts v1) [] []) E W) as [K _]; [|exact K]. split; [reflexivity|split; [reflexivity|split; intros ? []]]. }
  destruct (A v v1 v' E1 W1 T) as (K & v1' & X1 & T1). split; [exact K|]. destruct (B v1 v2 v1' E W T1) as (_ & v2' & X2 & T2).
  exists v2'. rewrite X1. auto.
Qed.
Lemma any_some : any (fun v => Some v).
Proof. intros v v1 v' [= <-] W T. split; [exact W|]. exists v'. auto. Qed.
Lemma any_chkE e : any (chkE e).
Proof.
  intros v v1 v' E [W1 W2] (T1 & T2 & T3 & T4). unfold chkE, vars_of in *. rewrite <- T1, <- T2. destruct (okE _ _ _); [|discriminate]. injection E as <-. cbn [s_funs s_globs] in *.
  apply incl_app_inv in W1. destruct W1 as [W0 W1]. split; [split; auto|]. eexists. split; [reflexivity|]. split; [reflexivity|]. split; [reflexivity|]. split; cbn; [apply incl_app; auto|auto].
Qed.
Lemma any_chkAuto l : any (chkAuto l).
Proof.
  induction l as [|x l IH]; [apply any_some|]. intros v v1 v' E W (T1 & T2 & T3). cbn [chkAuto] in *. rewrite <- T1. destruct (isin x (s_locs v)); [discriminate|].
  destruct (IH _ _ (mkEnv (x :: s_locs v') (s_exts v') (s_funs v') (s_globs v')) E W) as (K & v1' & X & T); [split; [cbn; congruence|split; [exact T2|exact T3]]|].
  split; [exact K|]. exists v1'. rewrite T1. auto.
Qed.
Lemma isin_in x l : isin x l = true <-> In x l.
Proof. unfold isin. rewrite existsb_exists. split; [intros (y & H & E); apply String.eqb_eq in E; congruence|intros H; exists x; split; [auto|apply String.eqb_refl]]. Qed.
Lemma any_chkExtrn l : any (chkExtrn l).
Proof.
  induction l as [|x l IH]; [apply any_some|]. intros v v1 v' E W (T1 & T2 & T3 & T4). cbn [chkExtrn] in *.
  set (u := mkEnv (s_locs v) (x :: s_exts v) (s_funs v) (if isin x (s_globs v) then s_globs v else x :: s_globs v)).
  assert (E' : chkExtrn l u = Some v1) by (subst u; destruct (isin x (s_globs v)); [exact E|destruct (isin x (s_funs v)); [discriminate|exact E]]). clear E.
  set (u' := mkEnv (s_locs v') (x :: s_exts v') (s_funs v') (if isin x (s_globs v') then s_globs v' else x :: s_globs v')).
  assert (XG : within u -> In x G).
  { intros [_ K]. subst u. cbn [s_globs] in K. destruct (isin x (s_globs v)) eqn:B; [apply isin_in in B; auto|apply K; left; reflexivity]. }
  destruct (IH u v1 (mkEnv (s_locs u) (s_exts u) [] []) E' W) as [WU _]; [split; [reflexivity|split; [reflexivity|split; intros ? []]]|].
  assert (WV : within v).
  { destruct WU as [K1 K2]. split; [exact K1|]. subst u. cbn [s_globs] in K2. destruct (isin x (s_globs v)); [exact K2|]. intros y Hy. apply K2. right. exact Hy. }
  split; [exact WV|]. destruct (IH u v1 u' E' W) as (_ & v1' & X & T).
  { split; [exact T1|]. split; [subst u u'; cbn; congruence|]. split; [exact T3|]. subst u'. cbn [s_globs]. destruct (isin x (s_globs v')); [exact T4|].
    intros y [<-|Hy]; auto. }
  exists v1'. split; [|exact T]. destruct (isin x (s_globs v')) eqn:B; [exact X|]. destruct (isin x (s_funs v')) eqn:B2; [|exact X].
  apply isin_in in B2. destruct (DJ x (T3 x B2) (XG WU)).
Qed.
Lemma any_chkS : (forall s sw, any (chkS sw s)) /\ (forall l sw, any (chkL sw l)).
Proof.
  apply stmt_stmts_ind; intros; cbn [chkS chkL];
    repeat first [apply any_some | apply any_chkE | apply any_chkAuto | apply any_chkExtrn | apply (any_bind (chkE _)) | apply (any_bind (chkS _ _)) | match goal with K : forall sw, any _ |- _ => apply K end].
  - destruct e; [apply any_chkE|apply any_some].
  - destruct sw; [apply H|intros ? ? ? [=]].
Qed.
Lemma any_chkD d v v1 v' : chkD d v = Some v1 -> within v1 -> within v' -> within v /\ exists v1', chkD d v' = Some v1' /\ within v1'.
Proof.
  intros E W W'. destruct d as [x l|x z l|x ps b]; cbn [chkD] in *.
  1,2: injection E as <-; destruct W as [W1 W2], W' as [W3 W4]; cbn [s_funs s_globs] in *; apply incl_cons_inv in W2; destruct W2; split; [split; auto|]; eexists; split; [reflexivity|]; split; cbn; auto using incl_cons.
  destruct (chkS false b _) as [u|] eqn:X; [|discriminate]. injection E as <-.
  destruct (proj1 any_chkS b false _ u (mkEnv (rev ps) [] [] []) X W) as [[K1 K2] _]; [split; [reflexivity|split; [reflexivity|split; intros ? []]]|]. cbn [s_funs s_globs] in K1, K2.
  apply incl_cons_inv in K1. destruct K1 as [K0 K1]. split; [split; auto|].
  destruct (proj1 any_chkS b false _ u (mkEnv (rev ps) [] (x :: s_funs v') (s_globs v')) X W) as (_ & u' & X' & _ & _ & T).
  { split; [reflexivity|split; [reflexivity|]]. destruct W'. split; cbn; auto using incl_cons. }
  rewrite X'. eexists. split; [reflexivity|]. exact T.
Qed.
Lemma any_members ds : forall v v1, chkP ds v = Some v1 -> within v1 -> within v /\ Forall (fun d => exists u u1, chkD d u = Some u1 /\ within u1) ds.
Proof.
  induction ds as [|d ds IH]; cbn [chkP]; intros v v1 E W; [injection E as <-; auto|]. destruct (chkD d v) as [u|] eqn:X; [|discriminate]. cbn [opt_bind] in E.
  destruct (IH _ _ E W) as [K1 K2]. split; [apply (any_chkD _ _ _ (mkEnv [] [] [] []) X K1); split; intros ? []|]. constructor; eauto.
Qed.
Lemma any_chkP ds' : Forall (fun d => exists u u1, chkD d u = Some u1 /\ within u1) ds' -> forall v', within v' -> exists v1', chkP ds' v' = Some v1' /\ within v1'.
Proof.
  induction 1 as [|d r (u & u1 & X & K) _ IH]; intros v' W'; [exists v'; auto|]. cbn [chkP]. destruct (any_chkD _ _ _ _ X K W') as (_ & w & X' & W2). rewrite X'. apply IH, W2.
Qed.
End Any.
(** Definitions of an accepted file, in any order. *)
Theorem chkP_order ds ds' v : chkP ds empty_env = Some v -> (forall x, In x (s_funs v) -> ~ In x (s_globs v)) -> incl ds' ds ->
  exists v', chkP ds' empty_env = Some v' /\ incl (s_funs v') (s_funs v) /\ incl (s_globs v') (s_globs v).
Proof.
  intros E D I. destruct (any_members (s_funs v) (s_globs v) D ds _ _ E) as [_ K]; [split; apply incl_refl|].
  apply (any_chkP (s_funs v) (s_globs v) D ds'); [|split; intros ? []]. rewrite Forall_forall in *. auto.
Qed.

(** ** Meaning *)
Lemma literals_in_eq ds : literals_in ds = literals ds. Proof. reflexivity. Qed.
Lemma litsD_nonneg d : 0 <= litsD d.
Proof. destruct d as [x l|x z l|x ps b]; cbn [litsD]; [induction l as [|[] l IH]; cbn [litsI]; lia..|apply litsS_nonneg]. Qed.
Lemma once_split (ds : list decl) d bf af bf' af' : NoDup (map dname ds) -> ds = bf ++ d :: af -> ds = bf' ++ d :: af' -> bf = bf'.
Proof.
  intros N E E'. subst ds. revert bf' E' N. induction bf as [|b bf IH]; intros [|b' bf'] E' N; cbn in *; auto.
  - injection E' as <- E'. inversion N as [|? ? K _]. subst. destruct K. rewrite map_app. apply in_or_app. right. left. reflexivity.
  - injection E' as <- E'. inversion N as [|? ? K _]. destruct K. rewrite map_app. apply in_or_app. right. left. reflexivity.
  - injection E' as <- E'. f_equal. inversion N. eapply IH; eauto.
Qed.
Lemma defined_once ds x ps b k : NoDup (map dname ds) -> (defined 0 ds x None = Some (ps, b, k) <-> exists bf af, ds = bf ++ DFunction x ps b :: af /\ k = literals bf).
Proof.
  intros N. split.
  - intros E. destruct (defined_split _ _ _ _ _ _ _ E) as [[[=] _]|(bf & af & -> & -> & _)]. eauto.
  - intros (bf & af & E & ->). destruct (defined 0 ds x None) as [[[ps' b'] k']|] eqn:D.
    + destruct (defined_split _ _ _ _ _ _ _ D) as [[[=] _]|(bf' & af' & E' & -> & _)].
      assert (K : DFunction x ps b = DFunction x ps' b').
      { assert (I1 : In (DFunction x ps b) ds) by (rewrite E; apply in_elt). assert (I2 : In (DFunction x ps' b') ds) by (rewrite E'; apply in_elt). clear - N I1 I2.
        induction ds as [|d ds IH]; [destruct I1|]. cbn in N. inversion N as [|? ? N1 N2]. subst. destruct I1 as [->|I1], I2 as [I2|I2]; auto.
        - destruct N1. apply (in_map dname) in I2. exact I2.
        - subst d. destruct N1. apply (in_map dname) in I1. exact I1. }
      injection K as <- <-. rewrite (once_split ds _ _ _ _ _ N E E'). reflexivity.
    + apply defined_none in D. destruct D as [_ D]. destruct (D ps b). rewrite E. apply in_elt.
Qed.
Theorem calls_order {W} (H H' : host W) locals ds ds' : reordered H H' ds ds' -> Permutation ds ds' -> NoDup (map dname ds) ->
  forall n x args, equal (calls H locals ds n x args) (calls H' locals ds' n x args).
Proof.
  intros R P N. assert (N' : NoDup (map dname ds')) by (eapply Permutation_NoDup; [apply Permutation_map; exact P|exact N]).
  induction n as [|n IH]; intros x args; [apply equal_refl|]. cbn [calls]. destruct (defined 0 ds x None) as [[[ps b] k]|] eqn:D.
  - apply (defined_once ds x ps b k N) in D. destruct D as (bf & af & E & ->).
    assert (I : In (DFunction x ps b) ds') by (eapply Permutation_in; [exact P|rewrite E; apply in_elt]). apply in_split in I. destruct I as (bf' & af' & E').
    rewrite (proj2 (defined_once ds' x ps b (literals bf') N')) by eauto.
    apply (shift_invoke H H' locals (literals bf) (literals bf + litsS b) (literals bf' - literals bf)); try apply R; try lia; [|exact IH].
    intros k Hk. pose proof (ro_lit _ _ _ _ R _ _ _ _ _ (k - literals bf) E E') as L. cbn [litsD] in L. change literals_in with literals in L.
    replace k with (literals bf + (k - literals bf)) at 1 by lia. rewrite L by lia. f_equal. lia.
  - destruct (defined 0 ds' x None) as [[[ps b] k]|] eqn:D'.
    + apply (defined_once ds' x ps b k N') in D'. destruct D' as (bf & af & E & _). apply defined_none in D. destruct D as [_ D]. destruct (D ps b).
      eapply Permutation_in; [apply Permutation_sym; exact P|rewrite E; apply in_elt].
    + intros m w. rewrite (ro_ext _ _ _ _ R). reflexivity.
Qed.
