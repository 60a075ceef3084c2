(** * PropsAccept: which texts are accepted, and what they mean (C72, C73)
    The other direction of PropsText.v: not only is every text of the grammar of
    SpecAccept.v that obeys the scope rules accepted, nothing else is. *)
From Coq Require Import List Ascii String ZArith NArith Lia Bool.
From Verif Require Import Base Lexer SpecLex LexerFacts IR Builder Expr Stmt Decl Wp Syntax SpecTree SpecStatic SpecText SpecAccept Joins RenderWf TextTac PropsText
  ParseText ParseTextS SpecSem IRSem SpecLink SimFun SimAny SemEx PropsExpr PropsEnd SpecValid PropsModule PropsTotal.
Import ListNotations.
Open Scope string_scope.
Open Scope list_scope.
Open Scope Z_scope.

(** [ds] is a tree of the source text [inp]. *)
Definition tree_of (inp : list ascii) (ds : list decl) : Prop := exists w s, inp = w ++ s /\ layout w /\ xP ds s.
Definition accepted (inp : list ascii) : Prop := exists m, compile inp false = Ok m tt.

(** ** C72 *)
(** A source of 7-bit characters is accepted exactly if it is a text of the
    grammar and a tree of it obeys the scope rules. *)
Theorem C72_language : forall inp, seven inp ->
  (accepted inp <-> exists ds v, tree_of inp ds /\ chkP ds empty_env = Some v).
Proof.
  intros inp S. split.
  - intros [m E]. destruct (compile_text inp false m S E) as (ds & w & s & -> & L & X & _). exists ds.
    pose proof (text_accepted ds s w X L) as T. destruct (chkP ds empty_env) as [v|] eqn:CK.
    + exists v. split; [exists w, s; auto|reflexivity].
    + destruct T as [e T]. congruence.
  - intros (ds & v & (w & s & -> & L & X) & CK). exact (C12_accepted_partial ds s w v X L CK).
Qed.
Print Assumptions C72_language.
(** It does not matter which tree is taken. *)
Theorem C72_any_tree : forall inp ds, seven inp -> tree_of inp ds -> (accepted inp <-> exists v, chkP ds empty_env = Some v).
Proof.
  intros inp ds S (w & s & -> & L & X). pose proof (text_accepted ds s w X L) as T. destruct (chkP ds empty_env) as [v|].
  - destruct T as (m & T & _). split; intros _; [eauto|exists m; exact T].
  - destruct T as [e T]. split; [intros [m K]; congruence|intros [v K]; discriminate].
Qed.
Print Assumptions C72_any_tree.
(** A text that is not of the grammar is rejected with a message: the compiler
    neither accepts it nor fails to stop. *)
Theorem C72_rejected : forall inp, seven inp -> (forall ds, ~ tree_of inp ds) -> exists e, compile inp false = Err e.
Proof.
  intros inp S N. destruct (C08_terminates inp false) as [[m E]|E]; [|exact E]. exfalso.
  destruct (compile_text inp false m S E) as (ds & w & s & -> & L & X & _). apply (N ds). exists w, s. auto.
Qed.
Print Assumptions C72_rejected.

(** For instance every accepted file ends with a semicolon or a closing brace,
    apart from layout. *)
Definition ends (s : list ascii) : Prop := exists p, s = p ++ [";"%char] \/ s = p ++ ["}"%char].
Lemma ends_app a s : ends s -> ends (a ++ s).
Proof. intros [p [->| ->]]; exists (a ++ p); rewrite !app_assoc; auto. Qed.
Lemma ends_semi : ends ($";"). Proof. exists []. auto. Qed.
Lemma ends_right a s : ends (a ++ s) -> Forall ident_char a -> ends s.
Proof.
  intros [p H] F. destruct s as [|c s _] using rev_ind.
  - exfalso. rewrite app_nil_r in H. assert (K : ident_char ";"%char \/ ident_char "}"%char).
    { destruct H as [->| ->]; apply Forall_app in F; destruct F as [_ F]; inversion F; auto. }
    destruct K as [K|K]; unfold ident_char in K; rewrite <- IsLetter_letter, <- IsDigit_digit in K; decompose [or] K; discriminate.
  - rewrite app_assoc in H. destruct H as [H|H]; apply app_inj_tail in H; destruct H as [_ ->]; exists s; auto.
Qed.
Ltac ends := repeat first [assumption|apply ends_semi|apply ends_app].
Lemma xAutos_ends l s : xAutos l s -> ends s. Proof. induction 1; ends. Qed.
Lemma xNames_ends l s : xNames ";" l s -> ends s. Proof. induction 1; ends. Qed.
Lemma xIvals_ends l s : xIvals l s -> ends s. Proof. induction 1; ends. Qed.
Lemma xS_ends : (forall s ss, xS s ss -> ends ss) /\ (forall l sl, xL l sl -> ends sl).
Proof.
  apply xS_xL_ind; intros; ends; eauto using xAutos_ends, xNames_ends.
  - eapply (ends_right ($x)); [|apply i]. match goal with H : _ = _ |- _ => rewrite H end. ends.
  - exists []. auto.
Qed.
Lemma xD_ends d s : xD d s -> ends s.
Proof.
  destruct 1 as [|? ? ? ? ? ? HV|? ? ? ? ? ? ? ? ? ? ? ? ? [[HV _]|[_ ->]]|? ? ? ? ? ? HS|? ? ? ? ? ? ? ? ? ? ? HS]; ends; eauto using xIvals_ends, (proj1 xS_ends).
Qed.
Lemma xP_ends ds s : xP ds s -> s = [] \/ exists p w, ends p /\ layout w /\ s = p ++ w.
Proof.
  induction 1 as [|d s w r sr HD L HP IH N]; [auto|]. right. destruct IH as [->|(p & w' & K & L' & ->)].
  - exists s, w. rewrite app_nil_r. eauto using xD_ends.
  - exists (s ++ w ++ p), w'. split; [ends|]. split; [auto|]. rewrite <- !app_assoc. auto.
Qed.
Theorem C72_last : forall inp, seven inp -> accepted inp ->
  layout inp \/ exists p c w, inp = p ++ c :: w /\ (c = ";"%char \/ c = "}"%char) /\ layout w.
Proof.
  intros inp S [m E]. destruct (compile_text inp false m S E) as (ds & w & s & -> & L & X & _).
  destruct (xP_ends _ _ X) as [->|(p & w' & [q K] & L' & ->)]; [left; rewrite app_nil_r; auto|]. right.
  destruct K as [->| ->]; [exists (w ++ q), ";"%char, w'|exists (w ++ q), "}"%char, w']; rewrite <- !app_assoc; auto.
Qed.
Print Assumptions C72_last.

Lemma seven_dec t : forallb (fun c => (0 <? code c) && (code c <? 128))%bool t = true -> seven t.
Proof. intros H. apply Forall_forall. intros c K. rewrite forallb_forall in H. apply H in K. lia. Qed.
Ltac seven := apply seven_dec; vm_compute; reflexivity.
(** A program, and the same with a missing brace. *)
Definition text72 := $"n 3;v[10];f(a,b){auto x,y[5];extrn n;if(a<b+1)x=2;else return;switch(x){case 1:g(x,y);}return(-y[0]);}".
Example C72_ex : seven text72 /\ tree_of text72 tree12 /\ accepted text72.
Proof.
  split; [seven|]. split; [exists [], text72; split; [auto|split; [apply lay_nil|text]]|]. eexists. vm_compute. reflexivity.
Qed.
Definition cut72 := $"f(){g(1".
Example C72_ex_rejected : seven cut72 /\ (forall ds, ~ tree_of cut72 ds) /\ ~ accepted cut72.
Proof.
  assert (N : forall ds, ~ tree_of cut72 ds).
  { intros ds (w & s & E & L & X).
    assert (O : forall p w', cut72 = p ++ w' -> layout w' -> w' = []).
    { intros p w' Ew Lw. destruct (other_lay _ Lw) as [|(q & b & -> & K)]; [auto|]. exfalso. rewrite app_assoc in Ew.
      change cut72 with ($"f(){g(" ++ ["1"%char]) in Ew. apply app_inj_tail in Ew. destruct Ew as [_ <-]. apply K. right. left.
      apply IsDigit_digit. reflexivity. }
    destruct (xP_ends _ _ X) as [->|(p & w' & [q K] & L' & ->)].
    - rewrite app_nil_r in E. apply (O [] w) in L; [|auto]. subst. discriminate.
    - rewrite app_assoc in E. rewrite (O _ _ E L') in E. rewrite app_nil_r in E. change cut72 with ($"f(){g(" ++ ["1"%char]) in E.
      destruct K as [->| ->]; rewrite app_assoc in E; apply app_inj_tail in E; destruct E; discriminate. }
  split; [seven|]. split; [exact N|]. intros A. apply C72_language in A; [|seven]. destruct A as (ds & v & A & _). exact (N ds A).
Qed.

(** The language is larger than B: a file no reading of the language
    definition allows, as the name begins with a digit. *)
Theorem C72_strict_refuted : exists inp, seven inp /\ accepted inp /\
  forall rr ds w s, inp = w ++ s -> layout w -> ~ tP rr ds s.
Proof.
  exists ($"1x;"). split; [seven|]. split; [eexists; vm_compute; reflexivity|]. intros rr ds w s E L T.
  assert (w = []) as ->.
  { destruct L as [|c r W _|t r _ _]; [auto| |discriminate]. injection E as <- _. cbn in W. decompose [or] W; discriminate || contradiction. }
  cbn [app] in E. subst s. inversion T as [|d s w r sr HD _ _ _ EQ EN]; subst.
  assert (K : exists x y, ident x /\ s = $x ++ y) by (destruct HD; eauto).
  destruct K as (x & y & (_ & _ & c & q & EX & LX) & ->). rewrite EX in EN. cbn in EN. injection EN as -> _.
  apply IsLetter_letter in LX. discriminate.
Qed.
Print Assumptions C72_strict_refuted.
(** The other liberties. In the first two texts "ab" is assigned. *)
Example C72_ex_joined : compile ($"f(){auto ab;a b=1;return(ab);}") false = compile ($"f(){auto ab;ab=1;return(ab);}") false /\
  accepted ($"f(){auto ab;a b=1;return(ab);}").
Proof. split; [vm_compute; reflexivity|eexists; vm_compute; reflexivity]. Qed.
Example C72_ex_liberties : Forall (fun t => accepted ($t))
  ["x 1,;"; "x[];"; "f(){g(1,);}"; "f(a){if(a)g();else;g();}"; "f(a){switch a case 1:g();}"; "f(){auto 1x;}"; "f(a,a){}"; "f(){goto x;}"; "f(){x:x:;}"].
Proof. repeat (apply Forall_cons; [eexists; vm_compute; reflexivity|]). apply Forall_nil. Qed.

(** ** C73 *)
(** Whatever is accepted has a tree, and for each of its trees the compiled
    functions do what the reference semantics says and run for ever if it says
    so; the module is valid if the tree is clean (C71). *)
Theorem C73_meaning_partial : forall inp M, seven inp -> compile inp false = Ok M tt ->
  (exists ds, tree_of inp ds) /\
  forall ds, tree_of inp ds ->
    (forall W (H : host W) I locals, linked H I M -> separate M -> Forall (regularD locals) ds -> forall x args m w,
       (forall n, follows I M x args m w (calls H locals ds n x args m w)) /\
       (endless H locals ds x args m w -> runs_forever I M x args m w /\ ~ code_ends I M x args m w)) /\
    (clean ds -> valid_module M).
Proof.
  intros inp M S E. split.
  - destruct (compile_text inp false M S E) as (ds & w & s & -> & L & X & _). exists ds, w, s. auto.
  - intros ds (w & s & -> & L & X). assert (MO : module_of ds M) by (exists w, s; auto). split.
    + intros W H I locals LK SEP REG x args m w0. split.
      * intros n. exact (C36_programs_partial W H I M ds locals MO LK SEP REG n x args m w0).
      * exact (C64_endless_partial W H I M ds locals MO LK SEP REG x args m w0).
    + exact (C71_valid_modules_partial ds M MO).
Qed.
Print Assumptions C73_meaning_partial.
(** Texts with liberties: a comma after the last argument, a variable whose name
    begins with a digit, and a missing initial value. *)
Definition src73 := $"1n 5,;g(k){return(k*k);}main(){return(g(7,));}".
Definition tree73 : list decl :=
  [DGlobal "1n" [IvInt 5; IvInt 0];
   DFunction "g" ["k"] (SBlock (SCons (SReturn (Some (EBin (CBin OMul) (v_ "k") (v_ "k")))) SNil));
   DFunction "main" [] (SBlock (SCons (SReturn (Some (ECall (ECallee "g") (ECons (EInt 7) ENil)))) SNil))].
Ltac x_name := split; [repeat (apply Forall_cons || apply Forall_nil); unfold ident_char, letter, digit; cbn [code]; vm_compute; intuition congruence
  |split; [repeat (apply Forall_cons || apply Forall_nil); vm_compute; reflexivity|discriminate]].
Lemma text73 : xP tree73 src73.
Proof.
  assert (H : exists s, xP tree73 s /\ s = src73); [|destruct H as (s & H & <-); exact H]. unfold tree73. eexists. split.
  - eapply xP_cons; [|apply lay_nil| |discriminate].
    { eapply (xD_init _ [" "%char]); [x_name|apply lay_white; [unfold white; vm_compute; tauto|apply lay_nil]| |vm_compute; intuition congruence|discriminate].
      eapply xIvals_more; [apply xIval_num; left; t_num|apply lay_nil|apply lay_nil|].
      eapply xIvals_end; [apply xIval_num; right; auto|apply lay_nil]. }
    eapply xP_cons; [|apply lay_nil| |discriminate].
    { eapply xD_fun; [x_name|apply lay_nil|eapply xNames_end; [x_name|apply lay_nil]|apply lay_nil|]. eapply xS_block; [apply lay_nil|].
      eapply xL_cons; [|apply lay_nil|apply xL_nil|discriminate]. eapply xS_returne; [|apply lay_nil..]. apply (proj1 tE_xE 15%nat).
      t_E. }
    eapply xP_cons; [|apply lay_nil|apply xP_nil|discriminate].
    eapply xD_fun0; [x_name|apply lay_nil|]. eapply xS_block; [apply lay_nil|].
    eapply xL_cons; [|apply lay_nil|apply xL_nil|discriminate]. eapply xS_returne; [|apply lay_nil..].
    eapply xE_up; [eapply xE_callx; [t_ident| |apply lay_nil]|lia]. eapply xA_cons; [|apply lay_nil|apply lay_nil|apply xA_nil].
    eapply xE_up; [eapply xE_num; t_num|lia].
  - vm_compute. reflexivity.
Qed.
Definition I73 := machine ["b.1n"; "b.g"; "main"].
Example C73_ex : seven src73 /\ compile src73 false = Ok (module_for src73) tt /\ tree_of src73 tree73 /\
  linked (host_of I73) I73 (module_for src73) /\ separate (module_for src73) /\ Forall (regularD true) tree73 /\
  match calls (host_of I73) true tree73 20 "main" [] empty_mem [] with Val z _ _ => z = 49 | _ => False end.
Proof.
  split; [seven|]. split; [vm_compute; reflexivity|]. split; [exists [], src73; split; [auto|split; [apply lay_nil|exact text73]]|].
  split; [by_machine|]. split; [by_names|]. split; [by_regular|]. vm_compute. reflexivity.
Qed.
