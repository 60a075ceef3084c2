(** * TotalityStmt: fuel and suffixes for statements and declarations *)
From Coq Require Import List Ascii String ZArith NArith Lia Bool.
From Verif Require Import Base Lexer LexerFacts SpecLex IR Builder Expr Stmt Decl Wp Totality.
Import ListNotations.
Open Scope Z_scope.
Open Scope m_scope.

(** ** Statements *)
Lemma wp_identOr (Q : string -> st -> Prop) m s :
  (forall name s', suf 1 s s' -> cs s' = cs s -> name <> EmptyString -> Q name s') ->
  wpT (identOr m) Q s.
Proof.
  intros H. unfold wp, identOr, lift.
  destruct (Identifier (lx s)) as [name l'|e|] eqn:E; auto; [|eapply Identifier_fuel; eauto].
  destruct name as [|a name]; auto. apply H; cbn; auto; [|congruence].
  apply Identifier_inv in E. destruct E as (lay & id & E & _ & _ & _ & Hn & _ & F).
  exists (lay ++ id). cbn. rewrite E, <- app_assoc. repeat split; auto.
  rewrite app_length. destruct id; [discriminate Hn|cbn; lia].
Qed.

Lemma wp_parseReturn n s (Q : unit -> st -> Prop) : (4 * len s + 4 <= n)%nat ->
  (forall s', suf 1 s s' -> Q tt s') -> wpT (parseReturn n) Q s.
Proof.
  intros Hn HQ. unfold parseReturn.
  repeat first [wstep
    | match goal with |- wp _ (parseExpression _) _ _ => eapply wp_mono; [apply parseExpression_total; lens|intros; cbv beta in *] end
    | match goal with u : unit |- _ => destruct u end
    | apply HQ; sufsolve ].
Qed.

Lemma goes_autoSize : goes 1 autoSize.
Proof.
  intros s. unfold autoSize.
  repeat first [wstep
    | match goal with |- wp _ (lift Number) _ _ => eapply wp_goes; [apply goes_Number|intros] end
    | sufsolve ].
Qed.

Lemma autoLoop_total n : forall seen decls s, (len s + 1 <= n)%nat ->
  wpT (autoLoop n seen decls) (fun _ s' => suf 1 s s') s.
Proof.
  induction n as [|n IH]; intros seen decls s Hn; [lia|]. cbn [autoLoop].
  wstep. apply wp_identOr. intros name s1 S1 _ _.
  wstep. wstep.
  destruct (mem name seen); [wstep|]. destruct (mem name (map fst (c_locals _))); [wstep|].
  repeat first [wstep
    | match goal with
      | |- wp _ autoSize _ _ => eapply wp_goes; [apply goes_autoSize|intros]
      | |- wp _ (autoLoop _ _ _) _ _ => eapply wp_mono; [apply IH; lens|intros; cbv beta in *]
      end
    | sufsolve ].
Qed.

Lemma wp_parseAuto n s (Q : unit -> st -> Prop) : (len s + 1 <= n)%nat ->
  (forall s', suf 1 s s' -> Q tt s') -> wpT (parseAuto n) Q s.
Proof.
  intros Hn HQ. unfold parseAuto. wstep.
  eapply wp_mono; [apply autoLoop_total; auto|intros; cbv beta in *].
  wstep. destruct a0. apply HQ. sufsolve.
Qed.

Lemma parseExtrn_total n : forall s, (len s + 1 <= n)%nat ->
  wpT (parseExtrn n) (fun _ s' => suf 1 s s') s.
Proof.
  induction n as [|n IH]; intros s Hn; [lia|]. cbn [parseExtrn].
  wstep. apply wp_identOr. intros name s1 S1 _ _.
  repeat first [wstep
    | match goal with
      | |- wp _ (parseExtrn _) _ _ => eapply wp_mono; [apply IH; lens|intros; cbv beta in *]
      end
    | sufsolve ].
Qed.

Lemma goes_parseGoto : goes 1 parseGoto.
Proof.
  intros s. unfold parseGoto. wstep. apply wp_identOr. intros name s1 S1 _ _.
  repeat first [wstep | sufsolve].
Qed.

(** The characters read by [readElse] are those [unreadAll] puts back. *)
Lemma readElse_spec es : forall acc s,
  wpT (readElse es acc)
    (fun p s' => exists q, fst p = q ++ acc /\ inp s = rev q ++ inp s' /\ l_fail (lx s') = l_fail (lx s) /\ cs s' = cs s) s.
Proof.
  induction es as [|e es IH]; intros acc s; cbn [readElse].
  - apply wp_ret. exists []. auto.
  - apply wp_bind. apply wp_rc'.
    + intros E. apply wp_ret. exists []. auto.
    + intros c s1 E S1 EC. destruct (Ascii.eqb c e).
      * eapply wp_mono; [apply IH|]. intros p s' (q & E1 & E2 & E3 & E4). exists (q ++ [c]).
        rewrite <- app_assoc, rev_app_distr. cbn. rewrite E, E2. repeat split; auto; [|congruence].
        apply suf_fail in S1. congruence.
      * apply wp_ret. exists [c]. cbn. apply suf_fail in S1. auto.
Qed.

Lemma wp_unreadAll (F : Prop) racc : forall (Q : unit -> st -> Prop) s,
  Q tt (mkSt (mkLexer (rev racc ++ inp s) (l_fail (lx s))) (cs s)) ->
  wp F (unreadAll racc) Q s.
Proof.
  induction racc as [|c r IH]; intros Q s H; cbn [unreadAll].
  - apply wp_ret. destruct s as [[i f] c]. exact H.
  - apply wp_bind. apply wp_unread. apply IH. cbn in *. rewrite <- app_assoc in H. exact H.
Qed.

Lemma goes_elseFollows : goes 0 elseFollows.
Proof.
  intros s. unfold elseFollows. apply wp_bind.
  eapply wp_mono; [apply readElse_spec|]. intros [acc ok] s1 (q & E1 & E2 & E3 & E4). cbn [fst] in E1.
  rewrite app_nil_r in E1. subst acc.
  destruct ok.
  - apply wp_bind. apply wp_rc'.
    + intros E. apply wp_ret. exists (rev q). repeat split; auto. lia.
    + intros c s2 E S1 EC. destruct (IsLetter c || IsDigit c).
      * apply wp_bind, wp_unreadAll, wp_ret. exists []. cbn. rewrite E2, E, <- app_assoc. cbn.
        repeat split; auto. apply suf_fail in S1. congruence.
      * apply wp_ret. exists (rev q ++ [c]). rewrite E2, E, <- app_assoc. cbn.
        repeat split; auto; [lia|]. apply suf_fail in S1. congruence.
  - apply wp_bind, wp_unreadAll, wp_ret. exists []. cbn. rewrite E2. auto.
Qed.

Lemma goes_caseValue : goes 0 caseValue.
Proof.
  intros s. unfold caseValue. wstep. wstep. wstep.
  - wstep; sufsolve.
  - destruct (IsDigit c); [|wstep]. wstep. wstep.
    eapply wp_goes; [apply goes_Number|intros]. sufsolve.
Qed.

(** Names pushed back by [keyword] contain no ';'. *)
Lemma utf8_no_semi c : ident_char c -> ~ In ";"%char (utf8 c).
Proof.
  intros H. unfold utf8. cbv zeta. pose proof (code_range c).
  destruct (Z.ltb_spec (code c) 128); cbn [In].
  - intros [->|[]]. unfold ident_char, letter, digit in H. cbn in H. intuition (try lia; discriminate).
  - intros [E|[E|[]]]; apply (f_equal code) in E; rewrite code_byte_of in E; change (code ";") with 59 in E; Z.div_mod_to_equations; lia.
Qed.

Lemma go_string_no_semi id : Forall ident_char id ->
  ~ In ";"%char (list_ascii_of_string (go_string id)).
Proof.
  intros H. unfold go_string. rewrite list_ascii_of_string_of_list_ascii.
  induction H; cbn; [auto|]. rewrite in_app_iff. intros [?|?]; auto. eapply utf8_no_semi; eauto.
Qed.

Lemma utf8_length c : (List.length (utf8 c) <= 2)%nat.
Proof. unfold utf8. destruct (_ <? _); cbn; lia. Qed.

Lemma go_string_length id : (List.length (list_ascii_of_string (go_string id)) <= 2 * List.length id)%nat.
Proof.
  unfold go_string. rewrite list_ascii_of_string_of_list_ascii.
  induction id as [|c id IH]; cbn; [lia|]. rewrite app_length. pose proof (utf8_length c). lia.
Qed.

Lemma app_semi (a b q r : list ascii) (x : ascii) : ~ In x a -> a ++ b = q ++ x :: r ->
  exists q', b = q' ++ x :: r.
Proof.
  revert q. induction a as [|y a IH]; intros q HN E; cbn in *; [eauto|].
  destruct q as [|z q]; cbn in E; injection E as -> E.
  - exfalso. auto.
  - apply (IH q); auto.
Qed.

Theorem stmt_total n :
  (forall sw s, (8 * len s + 12 <= n)%nat -> wpT (statement n sw) (fun _ s' => suf 1 s s') s) /\
  (forall sw s, (8 * len s + 13 <= n)%nat -> wpT (blockLoop n sw) (fun _ s' => suf 1 s s') s) /\
  (forall sw s c r, inp s = c :: r -> IsLetter c = true ->
     (8 * len s + 11 <= n)%nat -> wpT (keyword n sw) (fun _ s' => suf 1 s s') s) /\
  (forall s, (8 * len s + 12 <= n)%nat -> wpT (parseIf n) (fun _ s' => suf 1 s s') s) /\
  (forall s, (8 * len s + 12 <= n)%nat -> wpT (parseWhile n) (fun _ s' => suf 1 s s') s) /\
  (forall s, (8 * len s + 12 <= n)%nat -> wpT (parseSwitch n) (fun _ s' => suf 1 s s') s) /\
  (forall sw s, (8 * len s + 12 <= n)%nat -> wpT (parseCase n sw) (fun _ s' => suf 1 s s') s).
Proof.
  induction n as [|n (IHs & IHb & IHk & IHi & IHw & IHsw & IHc)].
  { repeat split; intros; lia. }
  Ltac call IH := eapply wp_mono; [apply IH; lens|intros; cbv beta in *].
  Ltac wks IHs IHb IHi IHw IHsw IHc :=
    repeat first
      [ wstep
      | match goal with
        | |- wp _ (statement _ _) _ _ => call IHs
        | |- wp _ (blockLoop _ _) _ _ => call IHb
        | |- wp _ (parseIf _) _ _ => call IHi
        | |- wp _ (parseWhile _) _ _ => call IHw
        | |- wp _ (parseSwitch _) _ _ => call IHsw
        | |- wp _ (parseCase _ _) _ _ => call IHc
        | |- wp _ (parseExpression _) _ _ => call parseExpression_total
        | |- wp _ (parseReturn _) _ _ => apply wp_parseReturn; [lens|intros]
        | |- wp _ (parseAuto _) _ _ => apply wp_parseAuto; [lens|intros]
        | |- wp _ (parseExtrn _) _ _ => call parseExtrn_total
        | |- wp _ parseGoto _ _ => eapply wp_goes; [apply goes_parseGoto|intros]
        | |- wp _ elseFollows _ _ => eapply wp_goes; [apply goes_elseFollows|intros]
        | |- wp _ caseValue _ _ => eapply wp_goes; [apply goes_caseValue|intros]
        end
      | sufsolve ].
  repeat apply conj.
  - intros sw s Hn. cbn [statement].
    wstep. wstep. wstep. wstep.
    wstep; [wks IHs IHb IHi IHw IHsw IHc|].
    wstep; [wks IHs IHb IHi IHw IHsw IHc|].
    destruct (IsLetter c) eqn:EL.
    + wstep. wstep. eapply wp_mono; [eapply IHk; [rewrite H3, H0; reflexivity|exact EL|lens]|].
      intros; cbv beta in *. sufsolve.
    + wks IHs IHb IHi IHw IHsw IHc.
  - intros sw s Hn. cbn [blockLoop]. wks IHs IHb IHi IHw IHsw IHc.
  - intros sw s c r E EL Hn. cbn [keyword].
    wstep. eapply wp_Identifier1; [exact E|unfold IsIdent; rewrite EL; reflexivity|].
    intros name s1 S1 (id & E1 & HI & Hname) EC1.
    wstep. wstep.
    repeat (match goal with |- wp _ (if String.eqb _ _ then _ else _) _ _ => destruct (String.eqb _ _) end;
            [wks IHs IHb IHi IHw IHsw IHc|]).
    wstep. wstep. wstep; [wks IHs IHb IHi IHw IHsw IHc|].
    wstep. wstep. wstep. apply wp_unreadAll.
    rewrite rev_involutive, H3, H0.
    set (s4 := mkSt _ _).
    assert (L4 : inp s4 = list_ascii_of_string (go_string id) ++ inp s') by (unfold s4; cbn; rewrite H0; reflexivity).
    assert (HL : (len s4 <= 2 * List.length id + len s')%nat).
    { rewrite L4, app_length. pose proof (go_string_length id). lia. }
    assert (HL2 : (len s = List.length id + len s1)%nat) by (rewrite E1, app_length; lia).
    assert (HL3 : (len s' <= len s1)%nat) by (apply suf_len in H; lia).
    wstep. eapply wp_mono; [apply parseExpression_total; lia|]. intros v s5 S5. cbv beta in S5.
    wstep. wstep. wstep. wstep. wstep.
    (* the rest is a suffix of what followed the name *)
    destruct (suf_trans _ _ _ _ _ S5 H6) as (q & Eq & _ & Fq).
    rewrite L4, H7 in Eq. apply app_semi in Eq.
    2:{ apply go_string_no_semi; auto. }
    destruct Eq as [q' Eq].
    assert (S6 : suf 1 s' s'1).
    { exists (q' ++ [";"%char]). rewrite Eq, <- app_assoc. cbn. repeat split; auto.
      - rewrite app_length; cbn; lia.
      - apply suf_fail in H8, H4, H1. unfold s4 in Fq. cbn in Fq. congruence. }
    sufsolve.
  - intros s Hn. cbn [parseIf]. wks IHs IHb IHi IHw IHsw IHc.
  - intros s Hn. cbn [parseWhile]. wks IHs IHb IHi IHw IHsw IHc.
  - intros s Hn. cbn [parseSwitch]. wks IHs IHb IHi IHw IHsw IHc.
  - intros sw s Hn. cbn [parseCase]. wks IHs IHb IHi IHw IHsw IHc.
Qed.


Lemma statement_total n sw s : (8 * len s + 12 <= n)%nat ->
  wpT (statement n sw) (fun _ s' => suf 1 s s') s.
Proof. apply (proj1 (stmt_total n)). Qed.

(** ** Declarations *)
Lemma goes_liftOr {A} d m (x : L A) : goes d (lift x) -> goes d (liftOr m x).
Proof.
  intros H s. specialize (H s). unfold wp, liftOr in *. destruct (lift x s); auto.
Qed.

Lemma goes_parseIvalConst : goes 0 parseIvalConst.
Proof.
  intros s. unfold parseIvalConst. wstep. wstep.
  destruct (IsLetter c).
  - wstep. wstep. wstep. apply wp_identOr. intros. wstep.
  - wstep; [wstep; eapply wp_goes; [apply goes_liftOr, goes_Character|intros]; wstep; sufsolve|].
    wstep; [repeat first [wstep|sufsolve]|].
    wstep; [wstep; eapply wp_goes; [apply goes_liftOr, goes_Number|intros]; wstep; sufsolve|].
    wstep. wstep. wstep. eapply wp_goes; [apply goes_liftOr, goes_Number|intros]. wstep. sufsolve.
Qed.

Lemma ivalLoop_total n : forall acc s, (len s + 1 <= n)%nat ->
  wpT (ivalLoop n acc) (fun _ s' => suf 1 s s') s.
Proof.
  induction n as [|n IH]; intros acc s Hn; [lia|]. cbn [ivalLoop].
  repeat first [wstep
    | match goal with
      | |- wp _ parseIvalConst _ _ => eapply wp_goes; [apply goes_parseIvalConst|intros]
      | |- wp _ (ivalLoop _ _) _ _ => eapply wp_mono; [apply IH; lens|intros; cbv beta in *]
      end
    | sufsolve ].
Qed.

Lemma parseGlobal_total n name s : (len s + 1 <= n)%nat ->
  wpT (parseGlobal n name) (fun _ s' => suf 1 s s') s.
Proof.
  intros Hn. unfold parseGlobal.
  repeat first [wstep
    | match goal with
      | |- wp _ (ivalLoop _ _) _ _ => eapply wp_mono; [apply ivalLoop_total; lens|intros; cbv beta in *]
      end
    | sufsolve ].
Qed.

Lemma parseVector_total n name s : (len s + 1 <= n)%nat ->
  wpT (parseVector n name) (fun _ s' => suf 1 s s') s.
Proof.
  intros Hn. unfold parseVector.
  repeat first [wstep
    | match goal with
      | |- wp _ (ivalLoop _ _) _ _ => eapply wp_mono; [apply ivalLoop_total; lens|intros; cbv beta in *]
      | |- wp _ (liftOr _ _) _ _ => eapply wp_goes; [apply goes_liftOr, goes_Number|intros]
      end
    | sufsolve ].
Qed.

Lemma parseArguments_total n : forall acc s, (len s + 1 <= n)%nat ->
  wpT (parseArguments n acc) (fun _ s' => suf 1 s s') s.
Proof.
  induction n as [|n IH]; intros acc s Hn; [lia|]. cbn [parseArguments].
  repeat first [wstep
    | match goal with
      | |- wp _ (identOr _) _ _ => apply wp_identOr; intros
      | |- wp _ (parseArguments _ _) _ _ => eapply wp_mono; [apply IH; lens|intros; cbv beta in *]
      end
    | sufsolve ].
Qed.

Lemma parseFunction_total n name s : (8 * len s + 12 <= n)%nat ->
  wpT (parseFunction n name) (fun _ s' => suf 1 s s') s.
Proof.
  intros Hn. unfold parseFunction.
  repeat first [wstep
    | match goal with
      | |- wp _ (parseArguments _ _) _ _ => eapply wp_mono; [apply parseArguments_total; lens|intros; cbv beta in *]
      | |- wp _ (statement _ _) _ _ => eapply wp_mono; [apply statement_total; lens|intros; cbv beta in *]
      end
    | sufsolve ].
Qed.

Lemma declaration_total n name s : (8 * len s + 12 <= n)%nat ->
  wpT (declaration n name) (fun _ s' => suf 1 s s') s.
Proof.
  intros Hn. unfold declaration.
  repeat first [wstep
    | match goal with
      | |- wp _ (parseFunction _ _) _ _ => eapply wp_mono; [apply parseFunction_total; lens|intros; cbv beta in *]
      | |- wp _ (parseVector _ _) _ _ => eapply wp_mono; [apply parseVector_total; lens|intros; cbv beta in *]
      | |- wp _ (parseGlobal _ _) _ _ => eapply wp_mono; [apply parseGlobal_total; lens|intros; cbv beta in *]
      end
    | sufsolve ].
Qed.

(** The whole file: never out of fuel, everything consumed, and success
    only if the input ends with EOF. *)
Theorem ParseDeclarations_total n : forall s, (8 * len s + 13 <= n)%nat ->
  wpT (ParseDeclarations n) (fun _ s' => inp s' = [] /\ l_fail (lx s) = false) s.
Proof.
  induction n as [|n IH]; intros s Hn; [lia|]. cbn [ParseDeclarations].
  wstep. eapply wp_goes; [apply goes_Identifier|intros name s1 S1].
  destruct (String.eqb name EmptyString).
  - wstep. wstep; [|wstep].
    unfold end_err. destruct (l_fail (lx s1)) eqn:EF; [wstep|]. wstep. split; auto.
    apply suf_fail in S1. congruence.
  - wstep. eapply wp_mono; [apply declaration_total; lens|]. intros u s2 S2. cbv beta in S2.
    eapply wp_mono; [apply IH; lens|]. cbv beta. intros _ s3 [E1 E2]. split; auto.
    apply suf_fail in S1, S2. congruence.
Qed.
