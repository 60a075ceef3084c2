(** * RenderWf: trees of texts are well formed *)
From Coq Require Import List Ascii String ZArith NArith Lia Bool Arith.
From Verif Require Import Base Lexer SpecLex LexerFacts IR Builder Expr Stmt Decl Wp Syntax Pure ParseGen SpecStatic Static SpecText SpecAccept Joins Render RenderStmt RenderDecl.
Import ListNotations.
Open Scope Z_scope.

Lemma ident_name x : ident x -> name_ok x.
Proof. intros (A & B & _). exists ($x). split; auto. rewrite go_string_seven by auto. symmetry. apply string_list. Qed.
Lemma num_int64 z s : tNum z s -> int64 z.
Proof. intros [z' ds _ _ [H _]]. exact H. Qed.
Lemma chr_int64 z s : tChr z s -> int64 z.
Proof. intros [z' s' bs _ _ [H _]]. exact H. Qed.
Lemma tE_wf rr : (forall l e s, tE rr l e s -> wfE e /\ shE e) /\ (forall l s, tA rr l s -> wfEs l /\ shEs l).
Proof.
  apply tE_tA_ind; intros; cbn [wfE wfEs shE shEs] in *;
    repeat match goal with H : _ /\ _ |- _ => destruct H end; repeat match goal with |- _ /\ _ => split end; eauto using ident_name, num_int64, chr_int64;
    try match goal with H : incdec ?op = _ |- inc_op ?op => destruct op; try discriminate H; cbn; auto; red; auto end.
  match goal with H : forall _, ?f <> _ |- _ => destruct f; auto; exfalso; eapply H; reflexivity end.
Qed.
Lemma tAutos_wf ds s : tAutos ds s -> Forall wf_auto ds.
Proof.
  assert (X : forall x z s, tAuto x z s -> wf_auto (x, z)).
  { intros x z s0 []; split; cbn; auto using ident_name; try (unfold int64; lia). destruct H0; eauto using num_int64, chr_int64. }
  induction 1; constructor; eauto.
Qed.
Lemma tNames_wf cl ns s : tNames cl ns s -> Forall name_ok ns.
Proof. induction 1; constructor; auto using ident_name. Qed.
Lemma tS_wf rr : (forall s ss, tS rr s ss -> wfS s /\ shS s) /\ (forall l sl, tL rr l sl -> wfL l /\ shL l).
Proof.
  destruct (tE_wf rr) as [X _].
  apply tS_tL_ind; intros; cbn [wfS wfL shS shL] in *; 
    repeat match goal with H : tE rr _ ?e _ |- _ => apply X in H end;
    repeat match goal with H : _ /\ _ |- _ => destruct H end; repeat match goal with |- _ /\ _ => split end; eauto using ident_name, tAutos_wf, tNames_wf.
  match goal with H : _ \/ _ |- _ => destruct H as [[_ H]|[_ H]]; eauto using num_int64, chr_int64 end.
Qed.
Lemma tIvals_wf vs s : tIvals vs s -> Forall wf_ival vs.
Proof.
  assert (X : forall v s, tIval v s -> wf_ival v).
  { intros v s0 [z s1 H|z z' w s1 H W [V _]|z s1 H|x s1 H]; cbn; eauto using num_int64, chr_int64. }
  induction 1; constructor; eauto.
Qed.
Theorem tP_wf rr ds s : tP rr ds s -> wfP ds /\ Forall shD ds.
Proof.
  assert (X : forall d s, tD rr d s -> wfD d /\ shD d).
  { destruct (tS_wf rr) as [Y _].
    intros d s0 [x I|x w vs s1 I W HV N|x z w1 sz w2 w3 vs s1 I W1 W2 W3 HZ HV|x w b sb I W HB|x w1 ps sp w b sb I W1 HP W HB]; cbn;
      repeat match goal with H : tS rr _ _ |- _ => apply Y in H; destruct H end; repeat match goal with |- _ /\ _ => split end; eauto using ident_name, tIvals_wf, tNames_wf.
    - destruct HZ as [H|[-> _]]; [eauto using num_int64|unfold int64; lia].
    - destruct HV as [H|[-> _]]; eauto using tIvals_wf. }
  induction 1 as [|d s w r sr H W HR [IH1 IH2] NE]; split; try constructor; auto; apply X in H; apply H.
Qed.


(** ** The same for the texts of SpecAccept.v *)
Lemma xname_name x : xname x -> name_ok x.
Proof. intros (A & B & _). exists ($x). split; auto. rewrite go_string_seven by auto. symmetry. apply string_list. Qed.
Lemma xnum_int64 z s : xNum z s -> int64 z.
Proof. intros [H|[-> _]]; [eauto using num_int64|unfold int64; lia]. Qed.
Lemma xE_wf : (forall l e s, xE l e s -> wfE e /\ shE e) /\ (forall l s, xA l s -> wfEs l /\ shEs l).
Proof.
  apply xE_xA_ind; intros; cbn [wfE wfEs shE shEs] in *;
    repeat match goal with H : _ /\ _ |- _ => destruct H end; repeat match goal with |- _ /\ _ => split end; eauto using ident_name, num_int64, chr_int64;
    try match goal with H : incdec ?op = _ |- inc_op ?op => destruct op; try discriminate H; cbn; auto; red; auto end.
  match goal with H : forall _, ?f <> _ |- _ => destruct f; auto; exfalso; eapply H; reflexivity end.
Qed.
Lemma xAutos_wf ds s : xAutos ds s -> Forall wf_auto ds.
Proof.
  assert (X : forall x z s, xAuto x z s -> wf_auto (x, z)).
  { intros x z s0 []; split; cbn; auto using xname_name; try (unfold int64; lia). destruct H0 as [H0|[H0|[-> _]]]; eauto using num_int64, chr_int64. unfold int64; lia. }
  induction 1; constructor; eauto.
Qed.
Lemma xNames_wf cl ns s : xNames cl ns s -> Forall name_ok ns.
Proof. induction 1; constructor; auto using xname_name. Qed.
Lemma xS_wf : (forall s ss, xS s ss -> wfS s /\ shS s) /\ (forall l sl, xL l sl -> wfL l /\ shL l).
Proof.
  destruct xE_wf as [X _].
  apply xS_xL_ind; intros; cbn [wfS wfL shS shL] in *; 
    repeat match goal with H : xE _ ?e _ |- _ => apply X in H end;
    repeat match goal with H : _ /\ _ |- _ => destruct H end; repeat match goal with |- _ /\ _ => split end; eauto using ident_name, xname_name, xAutos_wf, xNames_wf.
  match goal with H : _ \/ _ |- _ => destruct H as [H|H]; eauto using num_int64, chr_int64 end.
Qed.
Lemma xIvals_wf vs s : xIvals vs s -> Forall wf_ival vs.
Proof.
  assert (X : forall v s, xIval v s -> wf_ival v).
  { intros v s0 [z s1 H|z z' w s1 H W [V _]|z s1 H|x s1 H]; cbn; eauto using xnum_int64, chr_int64. }
  induction 1; constructor; eauto.
Qed.
Theorem xP_wf ds s : xP ds s -> wfP ds /\ Forall shD ds.
Proof.
  assert (X : forall d s, xD d s -> wfD d /\ shD d).
  { destruct xS_wf as [Y _].
    intros d s0 [x I|x w vs s1 I W HV N NS|x z w1 sz w2 w3 vs s1 I W1 W2 W3 HZ HV|x w b sb I W HB|x w1 ps sp w b sb I W1 HP W HB]; cbn;
      repeat match goal with H : xS _ _ |- _ => apply Y in H; destruct H end; repeat match goal with |- _ /\ _ => split end; eauto using xname_name, xnum_int64, xIvals_wf, xNames_wf.
    destruct HV as [[H _]|[-> _]]; eauto using xIvals_wf. }
  induction 1 as [|d s w r sr H W HR [IH1 IH2] NE]; split; try constructor; auto; apply X in H; apply H.
Qed.

(** ** The texts of SpecText.v are among them *)
Lemma ident_xname x : ident x -> xname x.
Proof. intros (A & B & c & r & E & _). repeat split; auto. rewrite E. discriminate. Qed.
Definition up5 (l : nat) : nat := if (l =? 5)%nat then 6%nat else l.
Lemma up5_le l l' : (l <= l')%nat -> (up5 l <= up5 l')%nat.
Proof. unfold up5. destruct (Nat.eqb_spec l 5), (Nat.eqb_spec l' 5); lia. Qed.
Lemma apart_x op s : apart op s -> x_apart op s.
Proof. intros H c r E K. apply (H c r E). unfold x_glue, glue in *. cbn [In] in *. tauto. Qed.
Lemma tE_xE : (forall l e s, tE 4 l e s -> xE (up5 l) e s) /\ (forall l s, tA 4 l s -> xA l s).
Proof.
  apply tE_tA_ind; intros; cbn [up5 Nat.eqb] in *; try (econstructor; eauto using apart_x; fail).
  - destruct op as [[]|[]]; cbn in e; inversion e; subst; cbn [up5 Nat.eqb] in *; 
      (eapply xE_bin; [reflexivity| | | | |]; eauto using apart_x; eapply xE_up; eauto; lia).
  - eapply xE_up; eauto using up5_le.
Qed.
(** What follows the first word of an expression. *)
Definition after_word (y : list ascii) : Prop := forall u, nid u -> not_starting (eq ":"%char) u -> nid (y ++ u) /\ not_starting (eq ":"%char) (y ++ u).
Lemma after_nil : after_word []. Proof. intros u. auto. Qed.
Lemma not_colon_lay w u : layout w -> not_starting (eq ":"%char) u -> not_starting (eq ":"%char) (w ++ u).
Proof.
  intros W H. destruct W as [|c w' Wc W'|b w' B W']; [exact H| |]; cbn; [|discriminate].
  intros <-. apply IsSpace_white in Wc. discriminate.
Qed.
Lemma after_app y w c v : after_word y -> layout w -> IsIdent c = false -> c <> ":"%char -> after_word (y ++ w ++ c :: v).
Proof.
  intros H W N1 N2 u U1 U2. rewrite <- !app_assoc. cbn [app]. apply H; [apply nid_lay, nid_chr; auto|]. apply not_colon_lay; auto. cbn. congruence.
Qed.
Lemma ns_app {P : ascii -> Prop} s u : s <> [] -> not_starting P s -> not_starting P (s ++ u).
Proof. destruct s; [congruence|auto]. Qed.
Lemma tE_ne l e s : tE 4 l e s -> s <> [].
Proof. intros H. apply (proj1 tE_xE) in H. apply xE_first in H. destruct H as (c & r & -> & _). discriminate. Qed.
Lemma bin_head rr op x l r : bin_op rr op = Some (x, l, r) -> exists c v, $x = c :: v /\ IsIdent c = false /\ c <> ":"%char.
Proof. intros H. destruct op as [[]|[]]; cbn in H; inversion H; subst; eexists _, _; (split; [reflexivity|split; [reflexivity|discriminate]]). Qed.
Lemma asg_head op : exists c v, $(asg_op op) = c :: v /\ IsIdent c = false /\ c <> ":"%char.
Proof. destruct op as [[[]|[]]|]; eexists _, _; (split; [reflexivity|split; [reflexivity|discriminate]]). Qed.
Lemma inc_head op x : incdec op = Some x -> exists c v, $x = c :: v /\ IsIdent c = false /\ c <> ":"%char.
Proof. intros H. destruct op; cbn in H; inversion H; subst; eexists _, _; (split; [reflexivity|split; [reflexivity|discriminate]]). Qed.
Lemma tE_word : (forall l e s, tE 4 l e s -> match lead e with
    | Some x => ident x /\ exists y, s = $x ++ y /\ after_word y
    | None => not_starting letter s
    end) /\ (forall l s, tA 4 l s -> True).
Proof.
  assert (D : forall d, digit d -> ~ letter d) by (intros d; unfold digit, letter; cbn [In]; lia).
  apply tE_tA_ind; intros; cbn [lead] in *; auto.
  all: try (cbn; intros K; unfold letter in K; cbn in K; lia).
  all: try (destruct op; try discriminate; match goal with H : incdec _ = Some _ |- _ => injection H as <- end; cbn; intros K; unfold letter in K; cbn in K; lia).
  all: try (match goal with H : match lead ?a with Some _ => _ | None => _ end |- _ => destruct (lead a) as [x0|];
      [destruct H as (Ix & y & -> & HY); split; [exact Ix|]; rewrite <- ?app_assoc; eexists; (split; [reflexivity|])|] end).
  - destruct t as [z' ds N Dg V]. destruct ds; [congruence|]. inversion Dg; subst. cbn. auto.
  - destruct t. cbn. intros K; unfold letter in K; cbn in K; lia.
  - destruct t. cbn. intros K; unfold letter in K; cbn in K; lia.
  - split; auto. exists []. rewrite app_nil_r. split; auto. apply after_nil.
  - apply (after_app y w "["%char); auto. discriminate.
  - apply ns_app; eauto using tE_ne.
  - split; auto. exists (w ++ $"(" ++ sl). split; auto. apply (after_app [] w "("%char); auto using after_nil. discriminate.
  - apply (after_app y w "("%char); auto. discriminate.
  - apply ns_app; eauto using tE_ne.
  - destruct (inc_head _ _ e) as (c0 & v & -> & N1 & N2). apply after_app; auto.
  - apply ns_app; eauto using tE_ne.
  - destruct (bin_head _ _ _ _ _ e) as (c0 & v & -> & N1 & N2). apply (after_app y w1 c0 (v ++ w2 ++ sb)); auto.
  - apply ns_app; eauto using tE_ne.
  - apply (after_app y w1 "?"%char); auto. discriminate.
  - apply ns_app; eauto using tE_ne.
  - destruct (asg_head op) as (c0 & v & -> & N1 & N2). apply (after_app y w1 c0 (v ++ w2 ++ sb)); auto.
  - apply ns_app; eauto using tE_ne.
Qed.
Lemma xS_of_expr e s w : tE 4 15 e s -> no_keyword e -> layout w -> xS (SExpr e) (s ++ w ++ $";").
Proof.
  intros H NK W. pose proof (proj1 tE_word _ _ _ H) as K. pose proof (proj1 tE_xE _ _ _ H) as X. destruct (lead e) as [x|] eqn:E.
  - destruct K as (Ix & y & -> & A).
    destruct (A (w ++ $";") ltac:(apply nid_lay; auto; apply nid_chr; reflexivity) ltac:(apply not_colon_lay; auto; discriminate)) as [A1 A2].
    rewrite <- app_assoc. apply (xS_word e x (y ++ w ++ $";") ($x ++ y) [] w); auto using lay_nil. rewrite <- app_assoc. reflexivity.
  - apply xS_expr; auto.
Qed.
Lemma tAutos_x ds s : tAutos ds s -> xAutos ds s.
Proof.
  assert (X : forall x z s, tAuto x z s -> xAuto x z s).
  { intros x z s0 []; [apply xAuto_word; auto using ident_xname| |apply xAuto_vec; auto using ident_xname; tauto].
    apply (xAuto_vec _ 0 w1 w2 [] []); auto using ident_xname, lay_nil. }
  induction 1; constructor; auto.
Qed.
Lemma tNames_x cl ns s : tNames cl ns s -> xNames cl ns s.
Proof. induction 1; constructor; auto using ident_xname. Qed.
Lemma gap_then w s : gap w -> then_ (w ++ s).
Proof. intros G. apply gap_nid, G. Qed.
Lemma white_not b : white b -> ~ letter b /\ ~ digit b.
Proof. intros W. apply IsSpace_white in W. rewrite <- IsLetter_letter, <- IsDigit_digit. destruct b as [[] [] [] [] [] [] [] []]; vm_compute in W |- *; try discriminate W; split; discriminate. Qed.
Lemma tS_xS : (forall s ss, tS 4 s ss -> xS s ss) /\ (forall l sl, tL 4 l sl -> xL l sl).
Proof.
  apply tS_tL_ind; intros; try match goal with H : tE 4 15 ?e ?s, K : no_keyword ?e |- _ => apply xS_of_expr; assumption end;
    repeat match goal with H : tE 4 _ _ _ |- _ => apply (proj1 tE_xE) in H end; cbn [up5 Nat.eqb] in *;
    try (constructor; auto using ident_xname, tAutos_x, tNames_x; fail).
  - constructor; auto using tAutos_x, gap_then. apply g.
  - constructor; auto using tNames_x, gap_then. apply g.
  - destruct (white_not b w0). constructor; auto.
  - apply xS_switch; auto.
    + intros (p & c & r & d & r' & _ & E & _ & _ & J & _). rewrite E in n0. exact (n0 J).
    + destruct e0 as (c & r & -> & HC). cbn [not_starting In]. intros K. destruct HC as [->|[->|HC]]; decompose [or] K; try discriminate; try contradiction;
        subst c; apply IsLetter_letter in HC; discriminate.
  - destruct o as [[G T]|[W T]].
    + apply xS_case; auto using gap_then. apply G.
    + apply xS_case; auto. apply nid_lay; auto. destruct T. apply nid_chr. reflexivity.
  - apply xS_goto; auto using gap_then, ident_xname. apply g.
Qed.
Lemma tIvals_x vs s : tIvals vs s -> xIvals vs s.
Proof.
  assert (X : forall v s, tIval v s -> xIval v s).
  { intros v s0 [z s1 H|z z' w s1 H W V|z s1 H|x s1 H]; [apply xIval_num; left|apply (xIval_neg z z'); auto; left|apply xIval_chr|apply xIval_str]; auto. }
  induction 1; constructor; auto.
Qed.
Lemma tIvals_start vs s : tIvals vs s -> exists c r, s = c :: r /\ chr_tok c = true /\ c <> ";"%char.
Proof.
  assert (X : forall v s, tIval v s -> exists c r, s = c :: r /\ chr_tok c = true /\ c <> ";"%char).
  { intros v s0 [z s1 H|z z' w s1 H W V|z s1 H|x s1 H].
    - destruct (tNum_head _ _ H) as (d & r & -> & T & _ & _ & _ & _ & K & _). exists d, r. repeat split; auto. intros ->. discriminate.
    - eexists _, _. repeat split. discriminate.
    - destruct H. eexists _, _. repeat split. discriminate.
    - destruct H. eexists _, _. repeat split. discriminate. }
  intros [v s0 w H W|v s0 w1 w2 r sr H W1 W2 _]; destruct (X _ _ H) as (c & r0 & -> & K); eexists _, _; (split; [reflexivity|exact K]).
Qed.
Lemma tD_xD d s : tD 4 d s -> xD d s.
Proof.
  destruct tS_xS as [X _].
  intros [x I|x w vs s1 I W HV N|x z w1 sz w2 w3 vs s1 I W1 W2 W3 HZ HV|x w b sb I W HB|x w1 ps sp w b sb I W1 HP W HB];
    try (constructor; auto using ident_xname, tNames_x; fail).
  - destruct (tIvals_start _ _ HV) as (c & r & E & T & K). apply xD_init; auto using ident_xname, tIvals_x.
    destruct W as [|c0 w' Wc W'|b w' B W']; cbn [app not_starting].
    + rewrite E. cbn. congruence.
    + intros <-. apply IsSpace_white in Wc. discriminate.
    + discriminate.
  - apply xD_vec; auto using ident_xname. destruct HV as [HV|HV]; [left|right; exact HV].
    destruct (tIvals_start _ _ HV) as (c & r & E & T & K). split; [apply tIvals_x, HV|]. rewrite E. split; [apply tok_chr, T|]. cbn. congruence.
Qed.
Theorem tP_xP ds s : tP 4 ds s -> xP ds s.
Proof. induction 1; constructor; auto using tD_xD. Qed.
(** A text is accepted exactly when its tree obeys the scope rules. *)
Theorem text_accepted ds s w : xP ds s -> layout w ->
  match chkP ds empty_env with
  | Some _ => exists m, compile (w ++ s) false = Ok m tt /\ generate true ds = Ok m tt
  | None => exists e, compile (w ++ s) false = Err e
  end.
Proof.
  intros H W. destruct (xP_wf _ _ H) as [W1 W2]. pose proof (generate_iff ds W1 W2) as G. pose proof (text_compiles ds s w H W) as T.
  destruct (chkP ds empty_env).
  - destruct G as (m & G & _). rewrite G in T. eauto.
  - destruct G as [e G]. rewrite G in T. eauto.
Qed.
