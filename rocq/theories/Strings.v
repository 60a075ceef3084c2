(** * Strings: the string literals of a file and the constants of its module *)
From Coq Require Import List Ascii String ZArith Bool Lia.
From Verif Require Import Base Lexer IR Builder Expr Stmt Decl Wp Syntax Pure ParseGen Pwp InvIR Msteps InvDecl Names InvNames Built InvSym SpecSem SimAny.
Import ListNotations.
Open Scope list_scope.
Open Scope Z_scope.

(** The string literals in the order of the text. *)
Fixpoint texts (e : expr) : list string :=
  match e with
  | EInt _ | EVar _ | ECallee _ => []
  | EStr s => [s]
  | EParen a | EPost _ a | EPre _ a | ENot a | ENeg a | EDeref a | EAddr a => texts a
  | EIdx a b | EBin _ a b | EAsg _ a b => texts a ++ texts b
  | ECond a b c => texts a ++ texts b ++ texts c
  | ECall f l => texts f ++ textsA l
  end
with textsA (l : exprs) : list string :=
  match l with ENil => [] | ECons e r => texts e ++ textsA r end.
Fixpoint textsS (s : stmt) : list string :=
  match s with
  | SNull | SReturn None | SAuto _ | SExtrn _ | SGoto _ => []
  | SExpr e | SReturn (Some e) => texts e
  | SBlock l => textsL l
  | SIf e s1 | SWhile e s1 | SSwitch e s1 => texts e ++ textsS s1
  | SIfElse e s1 s2 => texts e ++ textsS s1 ++ textsS s2
  | SCase _ s1 | SLabel _ s1 => textsS s1
  end
with textsL (l : stmts) : list string :=
  match l with SNil => [] | SCons s r => textsS s ++ textsL r end.
Definition textsI (l : list ival) : list string := flat_map (fun v => match v with IvInt _ => [] | IvStr s => [s] end) l.
Definition textsD (d : decl) : list string := match d with DGlobal _ l | DVector _ _ l => textsI l | DFunction _ _ s => textsS s end.
Definition textsP (ds : list decl) : list string := flat_map textsD ds.

Definition constant (k : Z) (s : string) : gdef := mkGlob (".str." ++ dec k)%string (GBytes (list_ascii_of_string s ++ [NUL])) true.
(** The literals [l] down to [l'] became constants. *)
Definition made (l l' : list string) (c c' : cstate) : Prop := exists pre, l = pre ++ l' /\
  c_stringID c' = c_stringID c + Z.of_nat (List.length pre) /\ strs_kept (c_mglobals c) (c_mglobals c') /\
  forall i s, nth_error pre i = Some s -> In (constant (c_stringID c + Z.of_nat i) s) (c_mglobals c').
Lemma made_none l c c' : c_stringID c' = c_stringID c -> strs_kept (c_mglobals c) (c_mglobals c') -> made l l c c'.
Proof. intros E K. exists []. repeat apply conj; auto; [cbn; lia|]. intros [|i] s X; discriminate X. Qed.
Lemma made_trans l1 l2 l3 a b c : made l1 l2 a b -> made l2 l3 b c -> made l1 l3 a c.
Proof.
  intros (p & -> & S1 & K1 & I1) (q & -> & S2 & K2 & I2). exists (p ++ q). repeat apply conj.
  - apply app_assoc.
  - rewrite app_length. lia.
  - eapply strs_trans; eauto.
  - intros i s E. destruct (lt_dec i (List.length p)) as [L|L].
    + rewrite nth_error_app1 in E by auto. apply (K2 (dec (c_stringID a + Z.of_nat i))); [auto|reflexivity].
    + rewrite nth_error_app2 in E by lia. apply I2 in E. rewrite S1 in E.
      replace (c_stringID a + Z.of_nat i) with (c_stringID a + Z.of_nat (List.length p) + Z.of_nat (i - List.length p)) by lia. exact E.
Qed.
Definition str {A} (l l' : list string) (m : C A) : Prop := forall c, pwp m (fun _ c' => made l l' c c') c.
Lemma str_bind {A B} l1 l2 l3 (m : C A) (f : A -> C B) : pure m -> str l1 l2 m -> (forall a, str l2 l3 (f a)) -> str l1 l3 (bind m f).
Proof.
  intros P H1 H2 c. eapply pwp_use; [auto|apply H1|]. cbv beta. intros a c' E.
  eapply pwp_mono; [apply H2|]. cbv beta. intros. eapply made_trans; eauto.
Qed.
Lemma str_modify l f : (forall c, c_stringID (f c) = c_stringID c /\ c_mglobals (f c) = c_mglobals c) -> str l l (modify f).
Proof. intros K c. apply pwp_modify. destruct (K c) as [E1 E2]. apply made_none; auto. rewrite E2. apply strs_refl. Qed.
Lemma str_err {A} l l' e : str l l' (@errorf st A e). Proof. intros c. apply pwp_err. Qed.
(** Whatever makes no constants. *)
Lemma str_0 {A} l (m : C A) : sid 0 m -> MS m -> str l l m.
Proof.
  intros S K c. eapply pwp_mono; [apply pwp_and; [apply S|apply K]|]. cbv beta. intros a c' [E M]. apply made_none; [lia|].
  apply msteps_strs. exact M.
Qed.
Lemma str_string s l : str (s :: l) l (CreateStringConstant s).
Proof.
  intros c. unfold CreateStringConstant. apply pwp_bind; [auto with pure|]. apply pwp_get. cbv zeta.
  apply pwp_bind; [auto with pure|]. apply pwp_modify. apply pwp_ret. exists [s]. repeat apply conj; auto.
  - cbn. apply strs_app.
  - intros [|i] t E; [|destruct i; discriminate E]. injection E as <-. cbn. rewrite Z.add_0_r. apply in_or_app. right. left. reflexivity.
Qed.
Create HintDb str.
#[export] Hint Resolve str_err str_string : str.
Ltac str0 := solve [apply str_0; [solve [eauto with sid nocore]|solve [auto with ms nocore]]].
Ltac str_tac :=
  repeat (first
    [ solve [auto with str nocore]
    | str0
    | match goal with K : forall _, _ |- str _ _ _ => solve [apply K] end
    | eapply str_bind; [solve [pure_tac]|str0|intros ?]
    | match goal with K : forall _, _ |- str _ _ (bind _ _) => eapply str_bind; [solve [pure_tac]|apply K|intros ?] end
    | eapply str_bind; [solve [pure_tac]|solve [auto with str nocore]|intros ?]
    | solve [apply str_modify; split; reflexivity]
    | eapply str_bind; [solve [pure_tac]|solve [apply str_modify; split; reflexivity]|intros ?]
    | match goal with
      | |- str _ _ (let _ := _ in _) => cbv zeta
      | |- str _ _ (if ?x then _ else _) => destruct x
      | |- str _ _ (match ?x with _ => _ end) => destruct x
      end ]).
Lemma str_gen chk : (forall e q k, str (texts e ++ k) k (gen chk q e)) /\ (forall l k, str (textsA l ++ k) k (genArgs chk l)).
Proof.
  apply expr_exprs_ind; intros; ugen; cbn [texts textsA app]; rewrite <- ?app_assoc; try str_tac.
Qed.
Lemma str_genR chk q e k : str (texts e ++ k) k (genR chk q e).
Proof. unfold genR. eapply str_bind; [pure_tac|apply str_gen|]. intros [v l]. str0. Qed.
#[export] Hint Resolve str_genR : str.
Lemma str_genS chk : (forall s sw k, str (textsS s ++ k) k (genS chk s sw)) /\ (forall l sw k, str (textsL l ++ k) k (genL chk l sw)).
Proof.
  apply stmt_stmts_ind; intros; ugenS; cbn [textsS textsL app]; rewrite <- ?app_assoc; try str_tac.
  eapply str_bind; [pure_tac| |intros ?; str_tac]. str_tac.
Qed.
Lemma str_genIvals l : forall k, str (textsI l ++ k) k (genIvals l).
Proof.
  induction l as [|v l IH]; intros k; cbn [genIvals]; [str0|]. unfold textsI. cbn [flat_map]. fold (textsI l). rewrite <- app_assoc.
  eapply str_bind; [pure_tac| |intros w; eapply str_bind; [pure_tac|apply IH|intros ws; str0]].
  destruct v; cbn [genIval app]; str_tac.
Qed.
Lemma strs_made l c c1 c' : made l [] c c1 -> strs_kept (c_mglobals c1) (c_mglobals c') -> c_stringID c' = c_stringID c1 -> made l [] c c'.
Proof.
  intros (p & E & S & K & HI) K2 E2. exists p. repeat apply conj; auto; [lia|eapply strs_trans; eauto|].
  intros i s X. eapply K2; [eauto|reflexivity].
Qed.
Lemma str_genD chk d c : pwp (genD chk d) (fun _ c' => made (textsD d) [] c c') c.
Proof.
  destruct d as [n vs|n z vs|n ps b]; cbn [textsD].
  - unfold genD. apply pwp_bind; [pure_tac|]. apply pwp_bind; [auto with pure|]. apply pwp_modify.
    eapply pwp_use; [auto with pure|apply (str_genIvals vs [])|]. cbv beta. intros ws c1 K. rewrite app_nil_r in K.
    assert (X : forall c', c_stringID c' = c_stringID c1 -> strs_kept (c_mglobals c1) (c_mglobals c') -> made (textsI vs) [] c c').
    { intros c' E1 E2. eapply strs_made; [|exact E2|exact E1]. destruct K as (p & E & S & K & HI). exists p. repeat apply conj; auto.
      eapply strs_trans; [apply (strs_remove _ n)|exact K]. }
    destruct ws as [|w [|w2 ws]]; apply pwp_modify; apply pwp_clear; apply X; try reflexivity; apply strs_app.
  - unfold genD. apply pwp_bind; [pure_tac|]. apply pwp_bind; [auto with pure|]. apply pwp_modify.
    eapply pwp_use; [auto with pure|apply (str_genIvals vs [])|]. cbv beta. intros ws c1 K. rewrite app_nil_r in K.
    assert (X : forall c', c_stringID c' = c_stringID c1 -> strs_kept (c_mglobals c1) (c_mglobals c') -> made (textsI vs) [] c c').
    { intros c' E1 E2. eapply strs_made; [|exact E2|exact E1]. destruct K as (p & E & S & K & HI). exists p. repeat apply conj; auto.
      eapply strs_trans; [apply (strs_remove _ n)|exact K]. }
    unfold DeclareGlobalArray. cbv zeta. destruct (_ && (1 <? _)); apply pwp_modify; apply pwp_clear; apply X; try reflexivity; cbn; rewrite <- ?app_assoc; apply strs_app.
  - eapply pwp_mono; [apply function_globals|]. cbv beta. intros u c' (c1 & c2 & E1 & E2 & [sw Y] & E3 & E4).
    pose proof (proj1 (str_genS chk) b None [] c1 _ _ Y) as K. cbv beta in K. rewrite app_nil_r in K.
    apply (strs_made _ c c2); [|rewrite E3; apply strs_refl|exact E4]. destruct K as (p & E & S & K & HI). exists p. rewrite E2, E1 in *. auto.
Qed.
Lemma str_genP chk ds : forall c, pwp (genP chk ds) (fun _ c' => made (textsP ds) [] c c') c.
Proof.
  induction ds as [|d ds IH]; intros c; cbn [genP].
  - apply pwp_ret. apply made_none; [auto|apply strs_refl].
  - eapply pwp_use; [auto with pure|apply str_genD|]. cbv beta. intros u c1 K. eapply pwp_mono; [apply IH|]. cbv beta. intros u2 c2 K2.
    unfold textsP. cbn [flat_map]. fold (textsP ds). destruct K as (p & E & S & K & HI). rewrite app_nil_r in E. subst p.
    eapply made_trans; [|exact K2]. exists (textsD d). auto.
Qed.

(** The numbers of SpecSem.v are the positions in these lists. *)
Lemma lits_texts : (forall e, Z.of_nat (List.length (texts e)) = lits e) /\ (forall l, Z.of_nat (List.length (textsA l)) = litsA l).
Proof. apply expr_exprs_ind; intros; cbn [texts textsA lits litsA]; rewrite ?app_length; cbn [List.length]; lia. Qed.
Lemma lits_textsS : (forall s, Z.of_nat (List.length (textsS s)) = litsS s) /\ (forall l, Z.of_nat (List.length (textsL l)) = litsL l).
Proof.
  pose proof (proj1 lits_texts) as X.
  apply stmt_stmts_ind; intros; cbn [textsS textsL litsS litsL]; try match goal with o : option _ |- _ => destruct o end;
    rewrite ?app_length; cbn [List.length]; repeat match goal with |- context [texts ?e] => pose proof (X e); generalize dependent (List.length (texts e)); intros end; lia.
Qed.
Lemma litsI_texts l : Z.of_nat (List.length (textsI l)) = litsI l.
Proof. induction l as [|[z|s] l IH]; [reflexivity|..]; unfold textsI; cbn [flat_map]; fold (textsI l); cbn [litsI app List.length]; lia. Qed.
Lemma litsD_texts d : Z.of_nat (List.length (textsD d)) = litsD d.
Proof. destruct d; cbn [textsD litsD]; [apply litsI_texts..|apply lits_textsS]. Qed.
Lemma defined_texts ds : forall pre x found ps b k,
  (forall ps b k, found = Some (ps, b, k) -> exists n, k = Z.of_nat n /\ forall i s, nth_error (textsS b) i = Some s -> nth_error (pre ++ textsP ds) (n + i) = Some s) ->
  defined (Z.of_nat (List.length pre)) ds x found = Some (ps, b, k) ->
  exists n, k = Z.of_nat n /\ forall i s, nth_error (textsS b) i = Some s -> nth_error (pre ++ textsP ds) (n + i) = Some s.
Proof.
  induction ds as [|d ds IH]; intros pre x found ps b k F D; cbn [defined] in D; [apply F with (1 := D)|].
  rewrite <- (litsD_texts d), <- Nat2Z.inj_add, <- app_length in D.
  unfold textsP in *. cbn [flat_map] in *. rewrite app_assoc in *. eapply IH; [|exact D].
  intros ps' b' k' E. assert (G : found = Some (ps', b', k') \/ exists y, d = DFunction y ps' b' /\ k' = Z.of_nat (List.length pre)).
  { destruct d as [| |y qs c]; auto. destruct (String.eqb y x); auto. injection E as <- <- <-. right. eauto. }
  destruct G as [G|(y & -> & ->)]; [eapply F; eauto|]. exists (List.length pre). split; auto. intros i s Es.
  rewrite <- app_assoc, nth_error_app2 by lia. replace (List.length pre + i - List.length pre)%nat with i by lia.
  cbn [textsD]. rewrite nth_error_app1; auto. apply nth_error_Some. congruence.
Qed.
