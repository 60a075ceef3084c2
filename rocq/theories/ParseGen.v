(** * ParseGen: every successful run of the parser performs the actions of
    the generator on some tree *)
From Coq Require Import List Ascii String ZArith NArith Lia Bool.
From Verif Require Import Base Lexer SpecLex LexerFacts IR Builder Expr Stmt Decl Wp Syntax Pure.
Import ListNotations.
Open Scope Z_scope.
Open Scope m_scope.

(** ** Well-formed trees *)
(** A name: the UTF-8 text of identifier characters (lexer.go:129-152). *)
Definition name_ok (n : string) : Prop := exists id, Forall ident_char id /\ n = go_string id.
Definition int64 (z : Z) : Prop := - 2 ^ 63 <= z < 2 ^ 63.
Definition inc_op (op : binop) : Prop := op = OAdd \/ op = OSub.

Fixpoint wfE (e : expr) : Prop :=
  match e with
  | EInt z => int64 z
  | EStr _ => True
  | EVar n | ECallee n => name_ok n
  | EParen a | ENot a | ENeg a | EDeref a | EAddr a => wfE a
  | EIdx a b | EBin _ a b | EAsg _ a b => wfE a /\ wfE b
  | ECall f args => wfE f /\ wfEs args
  | EPost op a | EPre op a => inc_op op /\ wfE a
  | ECond a b c => wfE a /\ wfE b /\ wfE c
  end
with wfEs (l : exprs) : Prop :=
  match l with ENil => True | ECons e r => wfE e /\ wfEs r end.

Definition wf_auto (d : string * Z) : Prop := name_ok (fst d) /\ int64 (snd d).

Fixpoint wfS (s : stmt) : Prop :=
  match s with
  | SNull => True
  | SExpr e => wfE e
  | SBlock l => wfL l
  | SReturn o => match o with None => True | Some e => wfE e end
  | SAuto ds => Forall wf_auto ds
  | SExtrn ns => Forall name_ok ns
  | SIf e s1 | SWhile e s1 | SSwitch e s1 => wfE e /\ wfS s1
  | SIfElse e s1 s2 => wfE e /\ wfS s1 /\ wfS s2
  | SCase z s1 => int64 z /\ wfS s1
  | SGoto n => name_ok n
  | SLabel n s1 => name_ok n /\ wfS s1
  end
with wfL (l : stmts) : Prop :=
  match l with SNil => True | SCons s r => wfS s /\ wfL r end.

Definition wf_ival (v : ival) : Prop := match v with IvInt z => int64 z | IvStr _ => True end.
Definition wfD (d : decl) : Prop :=
  match d with
  | DGlobal n vs => name_ok n /\ Forall wf_ival vs
  | DVector n z vs => name_ok n /\ int64 z /\ Forall wf_ival vs
  | DFunction n ps b => name_ok n /\ Forall name_ok ps /\ wfS b
  end.

(** The same with the names of called functions only in calls, as the parser
    makes them. *)
Fixpoint goodE (e : expr) : Prop :=
  match e with
  | EInt z => int64 z
  | EStr _ => True
  | EVar n => name_ok n
  | ECallee _ => False
  | EParen a | ENot a | ENeg a | EDeref a | EAddr a => goodE a
  | EIdx a b | EBin _ a b | EAsg _ a b => goodE a /\ goodE b
  | ECall f args => match f with ECallee n => name_ok n | _ => goodE f end /\ goodEs args
  | EPost op a | EPre op a => inc_op op /\ goodE a
  | ECond a b c => goodE a /\ goodE b /\ goodE c
  end
with goodEs (l : exprs) : Prop :=
  match l with ENil => True | ECons e r => goodE e /\ goodEs r end.
Fixpoint goodS (s : stmt) : Prop :=
  match s with
  | SNull => True
  | SExpr e => goodE e
  | SBlock l => goodL l
  | SReturn o => match o with None => True | Some e => goodE e end
  | SAuto ds => Forall wf_auto ds
  | SExtrn ns => Forall name_ok ns
  | SIf e s1 | SWhile e s1 | SSwitch e s1 => goodE e /\ goodS s1
  | SIfElse e s1 s2 => goodE e /\ goodS s1 /\ goodS s2
  | SCase z s1 => int64 z /\ goodS s1
  | SGoto n => name_ok n
  | SLabel n s1 => name_ok n /\ goodS s1
  end
with goodL (l : stmts) : Prop :=
  match l with SNil => True | SCons s r => goodS s /\ goodL r end.
Definition goodD (d : decl) : Prop :=
  match d with
  | DGlobal n vs => name_ok n /\ Forall wf_ival vs
  | DVector n z vs => name_ok n /\ int64 z /\ Forall wf_ival vs
  | DFunction n ps b => name_ok n /\ Forall name_ok ps /\ goodS b
  end.
Definition wfP (ds : list decl) : Prop := Forall wfD ds.
Definition goodP (ds : list decl) : Prop := Forall goodD ds.
Lemma goodE_wf : (forall e, goodE e -> wfE e) /\ (forall l, goodEs l -> wfEs l).
Proof.
  apply expr_exprs_ind; cbn [goodE goodEs wfE wfEs]; try tauto.
  intros f HF args HA [H1 H2]. split; auto. destruct f; cbn [wfE] in *; auto.
Qed.
Lemma goodS_wf : (forall s, goodS s -> wfS s) /\ (forall l, goodL l -> wfL l).
Proof.
  pose proof (proj1 goodE_wf). apply stmt_stmts_ind; cbn [goodS goodL wfS wfL]; auto; try (intros; intuition auto; fail).
  intros [e|]; auto.
Qed.
Lemma goodD_wf d : goodD d -> wfD d.
Proof. destruct d; cbn; auto. intros (H1 & H2 & H3). repeat split; auto. apply goodS_wf. auto. Qed.
Lemma goodP_wf ds : goodP ds -> wfP ds.
Proof. apply Forall_impl. apply goodD_wf. Qed.

(** ** Lexer results *)
Lemma wp_ident {B} (f : string -> C B) Q l c :
  (forall name l', name_ok name -> wp True (f name) Q (mkSt l' c)) ->
  wp True (bind (lift Identifier) f) Q (mkSt l c).
Proof.
  intros H. apply wp_bind, wp_lift; [auto|]. cbn [lx]. intros a l' E. apply H.
  destruct (Identifier_inv _ _ _ E) as (lay & id & _ & _ & HI & _ & -> & _). exists id; auto.
Qed.
Lemma wp_identOr {B} msg (f : string -> C B) Q l c :
  (forall name l', name_ok name -> wp True (f name) Q (mkSt l' c)) ->
  wp True (bind (identOr msg) f) Q (mkSt l c).
Proof.
  intros H. apply wp_bind. unfold wp at 1, identOr, lift. cbn [lx].
  destruct (Identifier l) as [[|x n] l'|e|] eqn:E; auto. apply H.
  destruct (Identifier_inv _ _ _ E) as (lay & id & _ & _ & HI & _ & E2 & _). exists id; auto.
Qed.
Lemma number_loop_int64 base : forall s num z b, int64 num -> number_loop base num s = (z, b) -> int64 z.
Proof.
  induction s as [|c s IH]; intros num z b HN; cbn [number_loop].
  - intros E; injection E; intros; subst; auto.
  - destruct (IsDigit c).
    + apply IH. apply wrap64_range.
    + intros E; injection E; intros; subst; auto.
Qed.
Lemma int64_0 : int64 0. Proof. unfold int64. lia. Qed.
Lemma Number_int64 l z l' : Number l = Ok z l' -> int64 z.
Proof.
  unfold Number, bind. destruct (Whitespace l) as [u [s fl]|e|]; try discriminate. cbn [l_in l_fail].
  destruct s as [|c s]; [discriminate|]. destruct (number_loop _ 0 (c :: s)) as [num b] eqn:E.
  apply number_loop_int64 in E; [|apply int64_0].
  destruct b; [destruct fl; [discriminate|]|]; intros H; injection H; intros; subst; auto.
Qed.
Lemma Character_int64 l z l' : Character l = Ok z l' -> int64 z.
Proof. intros H. destruct (Character_inv _ _ _ H) as (s & cs & _ & _ & _ & _ & ->). apply wrap64_range. Qed.
Definition gives64 (m : C Z) : Prop := forall l c,
  match m (mkSt l c) with Ok z s => cs s = c /\ int64 z | _ => True end.
Lemma g64_lift m : (forall l z l', m l = Ok z l' -> int64 z) -> gives64 (lift m).
Proof. intros H l c. unfold lift. cbn [lx]. destruct (m l) eqn:E; cbn; auto. eauto. Qed.
Lemma g64_Number : gives64 (lift Number). Proof. apply g64_lift, Number_int64. Qed.
Lemma g64_Character : gives64 (lift Character). Proof. apply g64_lift, Character_int64. Qed.
Lemma g64_liftOr msg m : gives64 (lift m) -> gives64 (liftOr msg m).
Proof. intros H l c. specialize (H l c). unfold liftOr. destruct (lift m (mkSt l c)); auto. Qed.
Lemma g64_ret z : int64 z -> gives64 (ret z). Proof. intros H l c. cbn. auto. Qed.
Lemma g64_errorf e : gives64 (errorf e). Proof. intros l c. exact I. Qed.
Lemma g64_bindlex {A} (m : C A) f : lexonly m -> (forall a, gives64 (f a)) -> gives64 (bind m f).
Proof.
  intros H1 H2 l c. unfold bind. specialize (H1 l c). destruct (m (mkSt l c)) as [a [l' c']|e|]; auto.
  cbn in H1. subst c'. apply H2.
Qed.
Lemma g64_bind m f : gives64 m -> (forall z, int64 z -> gives64 (f z)) -> gives64 (bind m f).
Proof.
  intros H1 H2 l c. unfold bind. specialize (H1 l c). destruct (m (mkSt l c)) as [a [l' c']|e|]; auto.
  cbn in H1. destruct H1 as [-> H1]. apply H2; auto.
Qed.
Ltac g64 := repeat (first
  [ apply g64_Number | apply g64_Character | apply g64_errorf
  | apply g64_ret; first [assumption | apply int64_0]
  | apply g64_liftOr
  | apply g64_bind; [solve [first [apply g64_Number | apply g64_Character | apply g64_liftOr; apply g64_Number]]|intros ? ?]
  | apply g64_bindlex; [solve [lex_tac]|intros ?]
  | apply g64_bind; [|intros ? ?]
  | match goal with |- gives64 (if ?b then _ else _) => destruct b end ]).
Lemma g64_autoSize : gives64 autoSize.
Proof.
  unfold autoSize. apply g64_bindlex; [lex_tac|intros _]. apply g64_bindlex; [lex_tac|intros ch].
  destruct (Ascii.eqb ch "]"); [apply g64_ret, int64_0|]. apply g64_bind; [g64|intros z Hz; g64].
Qed.
Lemma g64_caseValue : gives64 caseValue. Proof. unfold caseValue. g64. Qed.
Lemma wp_g64 {B} m (f : Z -> C B) Q l c : gives64 m ->
  (forall z l', int64 z -> wp True (f z) Q (mkSt l' c)) -> wp True (bind m f) Q (mkSt l c).
Proof.
  intros G H. apply wp_bind. unfold wp at 1. specialize (G l c). destruct (m (mkSt l c)) as [z [l' c']|e|]; auto.
  cbn in G. destruct G as [-> G]. auto.
Qed.

(** ** Stepping *)
Lemma wp_err {A} e (Q : A -> st -> Prop) s : wp True (errorf e) Q s. Proof. exact I. Qed.
Lemma wp_fl {A} e (Q : A -> st -> Prop) s : wp True (fail e) Q s. Proof. exact I. Qed.
Lemma wp_use {A B} (m : C A) (f : A -> C B) P Q s : wp True m P s ->
  (forall a l' c', P a (mkSt l' c') -> wp True (f a) Q (mkSt l' c')) -> wp True (bind m f) Q s.
Proof. intros H1 H2. apply wp_bind. eapply wp_mono; [exact H1|]. intros a [l' c']. apply H2. Qed.

Ltac g64lem := first [ apply g64_Number | apply g64_Character | apply g64_autoSize | apply g64_caseValue
  | apply g64_liftOr; first [apply g64_Number | apply g64_Character] ].
Ltac pstep1 :=
  match goal with
  | |- wp _ (errorf _) _ _ => exact I
  | |- wp _ (fail _) _ _ => exact I
  | |- wp _ (bind (lift Identifier) _) _ _ => apply wp_ident; intros ? ? ?
  | |- wp _ (bind (identOr _) _) _ _ => apply wp_identOr; intros ? ? ?
  | |- wp _ (bind _ _) _ _ =>
      first [ apply wp_g64; [solve [g64lem]|intros ? ? ?]
            | apply wp_genbT; [solve [auto with pure nocore]|intros ? ? ?]
            | apply wp_lexbT; [solve [lex_tac]|intros ? ?] ]
  | |- wp _ (let '(_, _) := ?x in _) _ _ => destruct x
  | |- wp _ (if ?b then _ else _) _ _ => destruct b eqn:?
  | |- wp _ (match ?x with _ => _ end) _ _ => destruct x
  | |- wp _ (let _ := _ in _) _ _ => cbv zeta
  end.
Ltac dr ch := match goal with |- wp _ (match ?x with inl _ => _ | inr _ => _ end) _ _ => destruct x as [[| |]|ch]; try exact I end.
Ltac dm := match goal with |- wp _ (match ?x with _ => _ end) _ _ => destruct x end.
Ltac psteps := repeat (first [exact I | pstep1 | progress cbv beta iota]).
Ltac ybuild :=
  unfold genR; cbn [gen genArgs andb];
  repeat (first [ eassumption | apply yields_ret
                | eapply yields_bind; [first [eassumption | apply yields_ret]|cbv beta iota] ]).

(** ** Expressions *)
Notation gE := (gen false false).
Notation gR := (genR false false).

Lemma yields_R e c v c' : yields (gE e) c (v, false) c' -> yields (gR e) c v c'.
Proof. intros H. unfold genR. eapply yields_bind; [exact H|]. apply yields_ret. Qed.

(** The operand of a call may be a name that is followed by '('. *)
Definition operandE (e : expr) (l : lexer) : Prop :=
  match e with ECallee n => name_ok n /\ exists s, l_in l = "("%char :: s | _ => goodE e end.
Lemma operandE_good e l : goodE e -> operandE e l.
Proof. destruct e; cbn; auto. contradiction. Qed.
Lemma operandE_cases e l : operandE e l -> goodE e \/ exists n s, e = ECallee n /\ name_ok n /\ l_in l = "("%char :: s.
Proof. destruct e; cbn [operandE]; auto. intros (H & s & E). right. eauto 8. Qed.
Lemma Whitespace_paren l s : l_in l = "("%char :: s -> Whitespace l = Ok tt l.
Proof. destruct l as [i f]. cbn [l_in]. intros ->. unfold Whitespace. cbn. reflexivity. Qed.
Lemma wp_peek {B} (f : goerr + ascii -> C B) Q l c :
  (forall r l2, (isCh r "(" = true -> exists s, l_in l2 = "("%char :: s) -> wp True (f r) Q (mkSt l2 c)) ->
  wp True (r <- rc ;; unreadOk r ;;; f r) Q (mkSt l c).
Proof.
  intros H. apply wp_bind. unfold rc, lift, wp at 1. cbn [lx]. destruct (tryRead l) as [r l1|e|] eqn:E; auto.
  apply wp_bind. destruct r as [e|ch]; cbn [unreadOk].
  - apply wp_ret. apply H. discriminate.
  - unfold unread, lift, wp at 1. cbn [lx UnreadChar]. cbn [cs]. apply H. cbn [isCh l_in]. intros K.
    apply Ascii.eqb_eq in K. subst ch. eexists. reflexivity.
Qed.
Lemma primaryIdent_sound name l c : name_ok name ->
  wp True (primaryIdent name) (fun v s' => exists e, operandE e (lx s') /\ yields (gE e) c v (cs s')) (mkSt l c).
Proof.
  intros HN. unfold primaryIdent. pstep1. apply wp_peek. intros r l2 HR.
  destruct (isCh r "(").
  - match goal with |- wp _ ?m _ _ => change m with (genCallee name) end.
    apply wp_genT; [auto with pure|]. intros v c' Y. exists (ECallee name). split; [split; [exact HN|auto]|exact Y].
  - pstep1. dm.
    + apply wp_genT; [auto with pure|]. intros v2 c2 Y. exists (EVar name). split; [exact HN|].
      cbn [gen]. unfold genVar. eapply yields_bind; [eassumption|]. exact Y.
    + pstep1. pstep1. pstep1. destruct (isCh _ "="); [exact I|].
      match goal with |- wp _ ?m _ _ => assert (P : pure m) end.
      { apply pure_bind; [auto with pure|]. intros x. pure_tac. }
      apply wp_genT; [exact P|]. intros v2 c2 Y. exists (EVar name). split; [exact HN|].
      cbn [gen]. unfold genVar. eapply yields_bind; [eassumption|]. exact Y.
Qed.

Theorem expr_sound n :
  (forall lv l c, wp True (exprL n lv) (fun v s' => exists e, goodE e /\ yields (gR e) c v (cs s')) (mkSt l c)) /\
  (forall lv lhs isL a c0 l c, goodE a -> yields (gE a) c0 (lhs, isL) c ->
     wp True (exprLoop n lv lhs isL) (fun v s' => exists e, goodE e /\ yields (gR e) c0 v (cs s')) (mkSt l c)) /\
  (forall l c, wp True (unary n) (fun v s' => exists e, goodE e /\ yields (gE e) c v (cs s')) (mkSt l c)) /\
  (forall l c, wp True (postfix n) (fun v s' => exists e, goodE e /\ yields (gE e) c v (cs s')) (mkSt l c)) /\
  (forall lhs isL a c0 l c, operandE a l -> yields (gE a) c0 (lhs, isL) c ->
     wp True (postfixLoop n lhs isL) (fun v s' => exists e, goodE e /\ yields (gE e) c0 v (cs s')) (mkSt l c)) /\
  (forall acc l c, wp True (callArgs n acc) (fun vs s' => exists es ws, goodEs es /\ vs = acc ++ ws /\ yields (genArgs false es) c ws (cs s')) (mkSt l c)) /\
  (forall l c, wp True (primary n) (fun v s' => exists e, operandE e (lx s') /\ yields (gE e) c v (cs s')) (mkSt l c)).
Proof.
  induction n as [|n (IHe & IHl & IHu & IHp & IHpl & IHa & IHpr)];
    [repeat split; intros; exact I|].
  assert (RV : forall lv isL a c0 l c lhs, goodE a -> yields (gE a) c0 (lhs, isL) c -> 
     forall l2, (fun (_:nat) (_:lexer) => True) lv l ->
     wp True (rval lhs isL) (fun v s' => exists e, goodE e /\ yields (gR e) c0 v (cs s')) (mkSt l2 c)).
  { intros. apply wp_genT; [auto with pure|]. intros v c2 Y. exists a. split; auto. ybuild. }
  repeat split.
  - intros lv l c. cbn [exprL]. eapply wp_use; [apply IHu|].
    intros [lhs isL] l1 c1 (e & W & Y). cbn [cs] in Y. eapply IHl; eauto.
  - intros lv lhs isL a c0 l c W Y. cbn [exprLoop]. pstep1. pstep1.
    dr ch.
    { eapply (RV lv); eauto. }
    destruct ((13 <=? lv)%nat && (ch =? "?")%char).
    { do 7 pstep1. pstep1. eapply wp_use; [apply IHe|]. intros vT l2 c2 (e1 & W1 & Y1). cbn [cs] in Y1.
      do 5 pstep1. eapply wp_use; [apply IHe|]. intros vE l3 c3 (e2 & W2 & Y2). cbn [cs] in Y2.
      do 3 pstep1. apply wp_genT; [auto with pure|]. intros v c4 Y4. cbn [cs].
      exists (ECond a e1 e2). split; [cbn; auto|]. unfold genR in Y1, Y2.
      apply yields_bind_inv in Y1; [|auto with pure]. destruct Y1 as ([] & ? & ? & ?).
      apply yields_bind_inv in Y2; [|auto with pure]. destruct Y2 as ([] & ? & ? & ?).
      apply yields_R. ybuild. }
    pstep1. dm.
    { pstep1. eapply wp_use; [apply IHe|]. intros w l2 c2 (e1 & W1 & Y1). cbn [cs] in Y1.
      pstep1. unfold genR in Y1. apply yields_bind_inv in Y1; [|auto with pure]. destruct Y1 as ([] & ? & ? & ?).
      eapply IHl with (a := EBin (CCmp PEQ) a e1); [cbn; auto|]. ybuild. }
    destruct ((14 <=? lv)%nat && (ch =? "=")%char).
    { pstep1. pstep1. destruct isL; [|exact I]. cbn [negb].
      match goal with |- wp _ (if ?b then _ else _) _ _ => destruct b end.
      - eapply wp_use; [apply IHe|]. intros w l2 c2 (e1 & W1 & Y1). cbn [cs] in Y1.
        do 3 pstep1. apply wp_genT; [auto with pure|]. intros v c4 Y4. cbn [cs].
        unfold genR in Y1. apply yields_bind_inv in Y1; [|auto with pure]. destruct Y1 as ([] & ? & ? & ?).
        exists (EAsg (Some (CCmp PEQ)) a e1). split; [cbn; auto|].
        apply yields_ret_inv in Y4. destruct Y4 as [-> ->]. apply yields_R. ybuild.
      - pstep1. eapply wp_use; [apply IHe|]. intros w l2 c2 (e1 & W1 & Y1). cbn [cs] in Y1.
        unfold genR in Y1. apply yields_bind_inv in Y1; [|auto with pure]. destruct Y1 as ([] & ? & ? & ?).
        match goal with |- wp _ (match ?x with _ => _ end) _ _ => destruct x as [o|] end.
        + do 3 pstep1. apply wp_ret. cbn [cs]. exists (EAsg (Some o) a e1). split; [cbn; auto|]. apply yields_R. ybuild.
        + pstep1. apply wp_ret. cbn [cs]. exists (EAsg None a e1). split; [cbn; auto|]. apply yields_R. ybuild. }
    Ltac bin a op IHe IHl :=
      pstep1; eapply wp_use; [apply IHe|]; 
      let w := fresh in let l2 := fresh in let c2 := fresh in let e1 := fresh in let W1 := fresh in let Y1 := fresh in
      intros w l2 c2 (e1 & W1 & Y1); cbn [cs] in Y1;
      pstep1; unfold genR in Y1; apply yields_bind_inv in Y1; [|solve [auto with pure]]; destruct Y1 as ([] & ? & ? & ?);
      eapply IHl with (a := EBin op a e1); [cbn; auto|]; ybuild.
    Ltac bin2 a op IHe IHl :=
      eapply wp_use; [apply IHe|]; 
      let w := fresh in let l2 := fresh in let c2 := fresh in let e1 := fresh in let W1 := fresh in let Y1 := fresh in
      intros w l2 c2 (e1 & W1 & Y1); cbn [cs] in Y1;
      pstep1; unfold genR in Y1; apply yields_bind_inv in Y1; [|solve [auto with pure]]; destruct Y1 as ([] & ? & ? & ?);
      eapply IHl with (a := EBin op a e1); [cbn; auto|]; ybuild.
    destruct ((10 <=? lv)%nat && (ch =? "|")%char); [bin a (CBin OOr) IHe IHl|].
    destruct ((8 <=? lv)%nat && (ch =? "&")%char); [bin a (CBin OAnd) IHe IHl|].
    destruct ((7 <=? lv)%nat && (ch =? "!")%char).
    { pstep1. destruct (isCh _ "="); [|exact I]. bin a (CCmp PNE) IHe IHl. }
    destruct ((6 <=? lv)%nat && (ch =? "<")%char).
    { pstep1. pstep1. destruct (isCh _ "<"); [bin2 a (CBin OShl) IHe IHl|].
      destruct (isCh _ "="); [bin2 a (CCmp PSLE) IHe IHl|]. pstep1. bin2 a (CCmp PSLT) IHe IHl. }
    destruct ((6 <=? lv)%nat && (ch =? ">")%char).
    { pstep1. pstep1. destruct (isCh _ ">"); [bin2 a (CBin OAShr) IHe IHl|].
      destruct (isCh _ "="); [bin2 a (CCmp PSGE) IHe IHl|]. pstep1. bin2 a (CCmp PSGT) IHe IHl. }
    destruct ((4 <=? lv)%nat && _).
    { pstep1. destruct (isCh _ ch).
      - pstep1. pstep1. eapply (RV lv); eauto.
      - pstep1. destruct (ch =? "+")%char; [bin a (CBin OAdd) IHe IHl|bin a (CBin OSub) IHe IHl]. }
    destruct ((3 <=? lv)%nat && _).
    { destruct (ch =? "*")%char; [bin a (CBin OMul) IHe IHl|].
      destruct (ch =? "/")%char; [bin a (CBin OSDiv) IHe IHl|bin a (CBin OSRem) IHe IHl]. }
    pstep1. eapply (RV lv); eauto.
  - intros l c. cbn [unary]. pstep1. pstep1. dr ch.
    destruct (ch =? "!")%char.
    { eapply wp_use; [apply IHu|]. intros [v isL] l2 c2 (e1 & W1 & Y1). cbn [cs] in Y1. cbv beta iota.
      do 2 pstep1. apply wp_ret. exists (ENot e1). split; [exact W1|]. ybuild. }
    destruct (ch =? "-")%char.
    { pstep1. destruct (isCh _ "-").
      - eapply wp_use; [apply IHu|]. intros [v isL] l2 c2 (e1 & W1 & Y1). cbn [cs] in Y1. cbv beta iota.
        destruct isL; [|exact I]. pstep1. apply wp_ret. exists (EPre OSub e1). split; [split; [right; auto|exact W1]|]. ybuild.
      - pstep1. eapply wp_use; [apply IHu|]. intros [v isL] l2 c2 (e1 & W1 & Y1). cbn [cs] in Y1. cbv beta iota.
        do 2 pstep1. apply wp_ret. exists (ENeg e1). split; [exact W1|]. ybuild. }
    destruct (ch =? "+")%char.
    { pstep1. destruct (isCh _ "+"); [|exact I].
      eapply wp_use; [apply IHu|]. intros [v isL] l2 c2 (e1 & W1 & Y1). cbn [cs] in Y1. cbv beta iota.
      destruct isL; [|exact I]. pstep1. apply wp_ret. exists (EPre OAdd e1). split; [split; [left; auto|exact W1]|]. ybuild. }
    destruct (ch =? "*")%char.
    { eapply wp_use; [apply IHu|]. intros [v isL] l2 c2 (e1 & W1 & Y1). cbn [cs] in Y1. cbv beta iota.
      do 2 pstep1. apply wp_ret. exists (EDeref e1). split; [exact W1|]. ybuild. }
    destruct (ch =? "&")%char.
    { eapply wp_use; [apply IHu|]. intros [v isL] l2 c2 (e1 & W1 & Y1). cbn [cs] in Y1. cbv beta iota.
      destruct isL; [|exact I]. pstep1. apply wp_ret. exists (EAddr e1). split; [exact W1|]. ybuild. }
    pstep1. apply IHp.
  - intros l c. cbn [postfix]. eapply wp_use; [apply IHpr|].
    intros [lhs isL] l1 c1 (e & W & Y). cbn [cs] in Y. eapply IHpl; eauto.
  - intros lhs isL a c0 l c W Y. destruct (operandE_cases _ _ W) as [G|(nm & s & -> & HN & EL)].
    2: { cbn [postfixLoop]. apply wp_bind. unfold wp at 1, lift. cbn [lx cs]. rewrite (Whitespace_paren l s EL).
      apply wp_bind. unfold wp at 1, rc, lift, tryRead. cbn [lx cs]. rewrite EL. cbn [lx cs].
      change ("(" =? "[")%char with false. change ("(" =? "(")%char with true. cbv iota.
      pstep1. eapply wp_use; [apply IHa|]. intros w l2 c2 (es & ws & W1 & -> & Y1). cbn [cs] in Y1. cbn [app].
      pstep1. eapply IHpl with (a := ECall (ECallee nm) es); [split; auto|]. ybuild. }
    clear W. cbn [postfixLoop]. pstep1. pstep1. dr ch.
    { apply wp_ret. exists a. auto. }
    destruct (ch =? "[")%char.
    { do 2 pstep1. eapply wp_use; [apply IHe|]. intros w l2 c2 (e1 & W1 & Y1). cbn [cs] in Y1.
      do 2 pstep1. unfold genR in Y1. apply yields_bind_inv in Y1; [|auto with pure]. destruct Y1 as ([] & ? & ? & ?).
      eapply IHpl with (a := EIdx a e1); [apply operandE_good; cbn [goodE]; auto|]. ybuild. }
    destruct (ch =? "(")%char.
    { pstep1. eapply wp_use; [apply IHa|]. intros w l2 c2 (es & ws & W1 & -> & Y1). cbn [cs] in Y1. cbn [app].
      pstep1. eapply IHpl with (a := ECall a es); [split; auto; destruct a; auto; contradiction|]. ybuild. }
    destruct ((ch =? "+")%char || (ch =? "-")%char).
    { pstep1. destruct (isCh _ ch).
      - destruct isL; [|exact I]. pstep1.
        eapply IHpl with (a := EPost (if (ch =? "+")%char then OAdd else OSub) a).
        + apply operandE_good. cbn [goodE]. split; auto. unfold inc_op. destruct (ch =? "+")%char; auto.
        + ybuild.
      - pstep1. pstep1. apply wp_ret. exists a. auto. }
    pstep1. apply wp_ret. exists a. auto.
  - intros acc l c. cbn [callArgs]. pstep1. destruct (_ =? ")")%char.
    { apply wp_ret. exists ENil, []. rewrite app_nil_r. repeat split; auto. }
    pstep1. eapply wp_use; [apply IHe|]. intros w l2 c2 (e1 & W1 & Y1). cbn [cs] in Y1.
    unfold genR in Y1. apply yields_bind_inv in Y1; [|auto with pure]. destruct Y1 as ([] & ? & ? & ?).
    pstep1. pstep1. destruct (_ =? ")")%char.
    { apply wp_ret. exists (ECons e1 ENil), [w]. cbn [cs]. repeat split; auto. ybuild. }
    destruct (_ =? ",")%char; [|exact I].
    eapply wp_mono; [apply IHa|]. intros vs [l3 c3] (es & ws & W2 & -> & Y2). cbn [cs] in *.
    exists (ECons e1 es), (w :: ws). rewrite <- app_assoc. repeat split; auto. ybuild.
  - intros l c. cbn [primary]. pstep1. pstep1. dr ch.
    destruct (ch =? QUOTE)%char.
    { pstep1. apply wp_ret. exists (EInt z). split; [auto|]. ybuild. }
    destruct (ch =? DQUOTE)%char.
    { apply wp_lexbT; [lex_tac|]. intros s l2. do 3 pstep1. apply wp_ret. exists (EStr s). split; [exact I|]. ybuild. }
    destruct (ch =? "(")%char.
    { eapply wp_use; [apply IHe|]. intros w l2 c2 (e1 & W1 & Y1). cbn [cs] in Y1.
      unfold genR in Y1. apply yields_bind_inv in Y1; [|auto with pure]. destruct Y1 as ([] & ? & ? & ?).
      pstep1. apply wp_ret. exists (EParen e1). split; [exact W1|]. ybuild. }
    destruct (IsDigit ch).
    { pstep1. pstep1. apply wp_ret. exists (EInt z). split; [auto|]. ybuild. }
    destruct (IsLetter ch); [|exact I]. pstep1. pstep1. apply primaryIdent_sound. auto.
Qed.

Lemma parseExpression_sound n l c :
  wp True (parseExpression n) (fun v s' => exists e, goodE e /\ yields (gR e) c v (cs s')) (mkSt l c).
Proof. apply expr_sound. Qed.

(** ** Statements *)
Notation gS := (genS false).
Definition does (c : cstate) (s' : st) : Prop :=
  exists s, goodS s /\ forall sw, yields (gS s sw) c sw (cs s').

Ltac ysbuild :=
  cbn [genS genL];
  repeat (first [ eassumption | apply yields_ret
                | eapply yields_bind; [first [eassumption | apply yields_ret]|cbv beta iota] ]).

Lemma parseReturn_sound n l c : wp True (parseReturn n) (fun _ s' => does c s') (mkSt l c).
Proof.
  unfold parseReturn. pstep1. destruct (_ =? ";")%char.
  { apply wp_genT; [auto with pure|]. intros [] c' Y. exists (SReturn None). split; [exact I|]. intros sw. ysbuild. }
  destruct (_ =? "(")%char; [|exact I].
  eapply wp_use; [apply parseExpression_sound|]. intros v l2 c2 (e & W & Y). cbn [cs] in Y.
  do 4 pstep1. apply wp_genT; [auto with pure|]. intros [] c' Y2. exists (SReturn (Some e)). split; [exact W|].
  intros sw. ysbuild.
Qed.

Lemma checkAutos_snoc decls : forall seen name z c,
  yields (checkAutos seen decls) c tt c -> mem name (rev (map fst decls) ++ seen) = false ->
  mem name (map fst (c_locals c)) = false ->
  yields (checkAutos seen (decls ++ [(name, z)])) c tt c.
Proof.
  induction decls as [|[x y] r IH]; intros seen name z c; cbn [checkAutos app map fst rev].
  - intros _ M1 M2 l. unfold bind, get. cbn [cs]. rewrite M1, M2. reflexivity.
  - intros Y M1 M2 l. specialize (IH (x :: seen) name z c).
    assert (G : mem x seen = false /\ mem x (map fst (c_locals c)) = false /\ yields (checkAutos (x :: seen) r) c tt c).
    { specialize (Y l). unfold bind, get in Y. cbn [cs] in Y.
      destruct (mem x seen); [discriminate|]. destruct (mem x (map fst (c_locals c))); [discriminate|].
      repeat split; auto. 
      destruct (yields_pure _ _ _ _ _ (pure_checkAutos r (x :: seen)) Y) as [Y2 _]. exact Y2. }
    destruct G as (G1 & G2 & G3). unfold bind, get. cbn [cs]. rewrite G1, G2. apply IH; auto.
    rewrite <- M1. rewrite <- app_assoc. reflexivity.
Qed.

Lemma autoLoop_sound n : forall seen decls l c, seen = rev (map fst decls) ->
  Forall wf_auto decls -> yields (checkAutos [] decls) c tt c ->
  wp True (autoLoop n seen decls) (fun ds s' => Forall wf_auto ds /\ cs s' = c /\ yields (checkAutos [] ds) c tt c) (mkSt l c).
Proof.
  induction n as [|n IH]; intros seen decls l c ES W Y; [exact I|]. cbn [autoLoop].
  pstep1. apply wp_bind, wp_get. cbn [cs].
  destruct (mem name seen) eqn:M1; [exact I|]. destruct (mem name (map fst (c_locals c))) eqn:M2; [exact I|].
  assert (K : forall z, int64 z -> Forall wf_auto (decls ++ [(name, z)]) /\ yields (checkAutos [] (decls ++ [(name, z)])) c tt c).
  { intros z HZ. split.
    - apply Forall_app. split; auto. constructor; auto. split; auto.
    - apply checkAutos_snoc; auto. rewrite app_nil_r, <- ES. auto. }
  assert (E : forall z, name :: seen = rev (map fst (decls ++ [(name, z)]))).
  { intros z. rewrite map_app, rev_app_distr. cbn. congruence. }
  pstep1. pstep1. destruct (_ =? "[")%char.
  - pstep1. destruct (K z) as [K1 K2]; auto. pstep1. pstep1. destruct (_ =? ";")%char; [apply wp_ret; auto|].
    destruct (_ =? ",")%char; [|exact I]. apply IH; auto.
  - destruct (K (-1)) as [K1 K2]; [unfold int64; lia|]. destruct (_ =? ";")%char; [apply wp_ret; auto|].
    destruct (_ =? ",")%char; [|exact I]. apply IH; auto.
Qed.

Lemma parseAuto_sound n l c : wp True (parseAuto n) (fun _ s' => does c s') (mkSt l c).
Proof.
  unfold parseAuto. eapply wp_use; [apply autoLoop_sound; auto|].
  - apply yields_ret.
  - intros ds l' c' (W & E & Y). cbn [cs] in E. subst c'. apply wp_genT; [auto with pure|].
    intros [] c' Y2. exists (SAuto ds). split; [exact W|]. intros sw. ysbuild.
Qed.

Lemma parseExtrn_sound n : forall l c,
  wp True (parseExtrn n) (fun _ s' => exists ns, Forall name_ok ns /\ yields (genExtrn ns) c tt (cs s')) (mkSt l c).
Proof.
  induction n as [|n IH]; intros l c; [exact I|]. cbn [parseExtrn]. do 4 pstep1.
  destruct a. destruct (_ =? ";")%char.
  - apply wp_ret. exists [name]. split; [auto|]. cbn [genExtrn cs]. ysbuild.
  - destruct (_ =? ",")%char; [|exact I]. eapply wp_mono; [apply IH|].
    intros [] s' (ns & W & Y). exists (name :: ns). split; [auto|]. cbn [genExtrn]. ysbuild.
Qed.

Lemma parseGoto_sound l c : wp True parseGoto (fun _ s' => does c s') (mkSt l c).
Proof.
  unfold parseGoto. do 7 pstep1. apply wp_lexT; [lex_tac|]. intros _ lz. exists (SGoto name). split; [auto|].
  intros sw. ysbuild.
Qed.

Theorem stmt_sound n :
  (forall sw l c, wp True (statement n sw) (fun sw' s' => exists s, goodS s /\ yields (gS s sw) c sw' (cs s')) (mkSt l c)) /\
  (forall sw l c, wp True (blockLoop n sw) (fun sw' s' => exists s, goodL s /\ yields (genL false s sw) c sw' (cs s')) (mkSt l c)) /\
  (forall sw l c, wp True (keyword n sw) (fun sw' s' => exists s, goodS s /\ yields (gS s sw) c sw' (cs s')) (mkSt l c)) /\
  (forall l c, wp True (parseIf n) (fun _ s' => does c s') (mkSt l c)) /\
  (forall l c, wp True (parseWhile n) (fun _ s' => does c s') (mkSt l c)) /\
  (forall l c, wp True (parseSwitch n) (fun _ s' => does c s') (mkSt l c)) /\
  (forall sw l c, wp True (parseCase n sw) (fun sw' s' => exists s, goodS s /\ yields (gS s sw) c sw' (cs s')) (mkSt l c)).
Proof.
  induction n as [|n (IHs & IHb & IHk & IHif & IHw & IHsw & IHc)]; [repeat split; intros; exact I|].
  assert (HD : forall (m : C unit) sw l c, wp True m (fun _ s' => does c s') (mkSt l c) ->
    wp True (m ;;; ret sw) (fun sw' s' => exists s, goodS s /\ yields (gS s sw) c sw' (cs s')) (mkSt l c)).
  { intros m sw l c H. eapply wp_use; [exact H|]. intros _ l' c' (s & W & Y). apply wp_ret. exists s. auto. }
  assert (HE : forall sw l c, wp True (parseExpression n ;;; lift Whitespace ;;;
      lift (ExpectChar ";" "expect ';' after expression statement") ;;; ret sw)
      (fun sw' s' => exists s, goodS s /\ yields (gS s sw) c sw' (cs s')) (mkSt l c)).
  { intros sw l c. eapply wp_use; [apply parseExpression_sound|]. intros v l2 c2 (e & W & Y). cbn [cs] in Y.
    do 2 pstep1. apply wp_ret. exists (SExpr e). split; [exact W|]. ysbuild. }
  repeat split.
  - intros sw l c. cbn [statement]. pstep1. pstep1. destruct (_ =? "{")%char.
    { eapply wp_mono; [apply IHb|]. intros sw' s' (s & W & Y). exists (SBlock s). auto. }
    destruct (_ =? ";")%char. { apply wp_ret. exists SNull. split; [exact I|]. ysbuild. }
    destruct (IsLetter _); pstep1; [apply IHk|apply HE].
  - intros sw l c. cbn [blockLoop]. pstep1. pstep1. destruct (_ =? "}")%char.
    { apply wp_ret. exists SNil. split; [exact I|]. ysbuild. }
    pstep1. eapply wp_use; [apply IHs|]. intros sw' lz cz (s & W & Y). cbn [cs] in Y.
    eapply wp_mono; [apply IHb|]. intros sw2 s2 (s3 & W3 & Y3). exists (SCons s s3). split; [split; auto|]. ysbuild.
  - intros sw l c. cbn [keyword]. pstep1. pstep1.
    destruct (_ =? "return")%string; [apply HD, parseReturn_sound|].
    destruct (_ =? "auto")%string; [apply HD, parseAuto_sound|].
    destruct (_ =? "extrn")%string.
    { eapply wp_use; [apply parseExtrn_sound|]. intros [] l2 c2 (ns & W & Y). apply wp_ret.
      exists (SExtrn ns). split; [exact W|]. cbn [cs] in *. ysbuild. }
    destruct (_ =? "if")%string; [apply HD, IHif|].
    destruct (_ =? "while")%string; [apply HD, IHw|].
    destruct (_ =? "switch")%string; [apply HD, IHsw|].
    destruct (_ =? "case")%string; [apply IHc|].
    destruct (_ =? "goto")%string; [apply HD, parseGoto_sound|].
    pstep1. destruct (_ =? ":")%char.
    + do 3 pstep1. eapply wp_mono; [apply IHs|]. intros sw' s' (s & W & Y). exists (SLabel name s).
      split; [split; auto|]. ysbuild.
    + pstep1. pstep1. apply HE.
  - intros l c. cbn [parseIf]. pstep1.
    eapply wp_use; [apply parseExpression_sound|]. intros v l2 c2 (e & W & Y). cbn [cs] in Y.
    do 9 pstep1. eapply wp_use; [apply IHs|]. intros sw1 l3 c3 (s1 & W1 & Y1). cbn [cs] in Y1.
    do 4 pstep1. match goal with |- wp _ (bind (if ?b then _ else _) _) _ _ => destruct b end.
    + apply wp_bind. eapply wp_use; [apply IHs|]. intros sw2 l4 c4 (s2 & W2 & Y2). cbn [cs] in Y2. apply wp_ret.
      pstep1. apply wp_genT; [auto with pure|]. intros [] c5 Y5. exists (SIfElse e s1 s2). split; [cbn; auto|].
      intros sw. ysbuild.
    + pstep1. pstep1. apply wp_genT; [auto with pure|]. intros [] c5 Y5. exists (SIf e s1). split; [cbn; auto|].
      intros sw. apply yields_ret_inv in H8. destruct H8 as [-> ->]. ysbuild.
  - intros l c. cbn [parseWhile]. do 7 pstep1.
    eapply wp_use; [apply parseExpression_sound|]. intros v l2 c2 (e & W & Y). cbn [cs] in Y.
    do 5 pstep1. eapply wp_use; [apply IHs|]. intros sw1 l3 c3 (s1 & W1 & Y1). cbn [cs] in Y1.
    pstep1. apply wp_genT; [auto with pure|]. intros [] c5 Y5. exists (SWhile e s1). split; [cbn; auto|].
    intros sw. ysbuild.
  - intros l c. cbn [parseSwitch]. pstep1.
    eapply wp_use; [apply parseExpression_sound|]. intros v l2 c2 (e & W & Y). cbn [cs] in Y.
    do 5 pstep1. eapply wp_use; [apply IHs|]. intros sw1 l3 c3 (s1 & W1 & Y1). cbn [cs] in Y1.
    do 2 pstep1. apply wp_genbT; [pure_tac|]. intros u c4 Y4. apply wp_genT; [auto with pure|]. intros [] c5 Y5.
    exists (SSwitch e s1). split; [cbn; auto|]. intros sw. ysbuild.
  - intros sw l c. cbn [parseCase]. destruct sw as [[id vals]|]; [|exact I].
    do 6 pstep1. eapply wp_mono; [apply IHs|]. intros sw' s' (s & W & Y). exists (SCase z s). split; [cbn; auto|]. ysbuild.
Qed.

(** ** Definitions *)
Lemma parseIvalConst_sound l c :
  wp True parseIvalConst (fun w s' => exists v, wf_ival v /\ yields (genIval v) c w (cs s')) (mkSt l c).
Proof.
  unfold parseIvalConst. pstep1. destruct (IsLetter _). { pstep1. pstep1. exact I. }
  destruct (_ =? QUOTE)%char. { pstep1. apply wp_ret. exists (IvInt z). split; [auto|]. ysbuild. }
  destruct (_ =? DQUOTE)%char.
  { apply wp_lexbT; [lex_tac|]. intros s l2. pstep1. apply wp_ret. exists (IvStr s). split; [exact I|].
    cbn [genIval cs]. ysbuild. }
  destruct (_ =? "-")%char.
  { pstep1. apply wp_ret. exists (IvInt (wrap64 (- z))). split; [apply wrap64_range|]. ysbuild. }
  pstep1. pstep1. apply wp_ret. exists (IvInt z). split; [auto|]. ysbuild.
Qed.

Lemma ivalLoop_sound n : forall acc l c,
  wp True (ivalLoop n acc) (fun ws s' => exists vs us, vs <> [] /\ Forall wf_ival vs /\ ws = acc ++ us /\ yields (genIvals vs) c us (cs s')) (mkSt l c).
Proof.
  induction n as [|n IH]; intros acc l c; [exact I|]. cbn [ivalLoop]. pstep1.
  eapply wp_use; [apply parseIvalConst_sound|]. intros w l2 c2 (v & W & Y). cbn [cs] in Y.
  pstep1. pstep1. destruct (_ =? ";")%char.
  { apply wp_ret. exists [v], [w]. cbn [cs genIvals]. repeat split; auto; [discriminate|]. ysbuild. }
  destruct (_ =? ",")%char; [|exact I].
  eapply wp_mono; [apply IH|]. intros ws s' (vs & us & N & W2 & -> & Y2).
  exists (v :: vs), (w :: us). rewrite <- app_assoc. repeat split; auto; [discriminate|]. cbn [genIvals]. ysbuild.
Qed.

Lemma parseGlobal_sound n name l c : name_ok name ->
  wp True (parseGlobal n name ;;; ClearTopLevelContext)
    (fun _ s' => exists d, goodD d /\ yields (genD false d) c tt (cs s')) (mkSt l c).
Proof.
  intros HN. unfold parseGlobal. apply wp_bind. pstep1. pstep1. destruct (_ =? ";")%char.
  - apply wp_genT; [auto with pure|]. intros u c1 Y1. apply wp_genT; [auto with pure|]. intros [] c2 Y2.
    exists (DGlobal name []). split; [cbn; auto|]. unfold genD. eapply yields_bind; [|exact Y2].
    cbn [genIvals]. ysbuild.
  - pstep1. eapply wp_use; [apply ivalLoop_sound|]. intros ws l2 c2 (vs & us & N & W & -> & Y). cbn [app cs] in *.
    apply wp_genT; [pure_tac|]. intros u c1 Y1. apply wp_genT; [auto with pure|]. intros [] c3 Y2.
    exists (DGlobal name vs). split; [cbn; auto|]. unfold genD. eapply yields_bind; [|exact Y2].
    eapply yields_bind; [eassumption|]. cbv beta. eapply yields_bind; [eassumption|]. cbv beta.
    destruct us as [|u1 us]; [|exact Y1].
    exfalso. destruct vs as [|v vs]; [auto|]. cbn [genIvals] in Y.
    apply yields_bind_inv in Y; [|auto with pure]. destruct Y as (? & ? & _ & Y).
    apply yields_bind_inv in Y; [|auto with pure]. destruct Y as (? & ? & _ & Y).
    apply yields_ret_inv in Y. destruct Y; discriminate.
Qed.

Lemma parseVector_sound n name l c : name_ok name ->
  wp True (parseVector n name ;;; ClearTopLevelContext)
    (fun _ s' => exists d, goodD d /\ yields (genD false d) c tt (cs s')) (mkSt l c).
Proof.
  intros HN. unfold parseVector. apply wp_bind. do 3 pstep1.
  apply wp_g64. { g64. } intros z l1 HZ. do 2 pstep1.
  match goal with |- wp _ (bind (if ?b then _ else _) _) _ _ => destruct b end.
  - pstep1. apply wp_genT; [auto with pure|]. intros u c1 Y1. apply wp_genT; [auto with pure|]. intros [] c2 Y2.
    match goal with H : yields (ret []) _ _ _ |- _ => apply yields_ret_inv in H; destruct H as [-> ->] end.
    exists (DVector name z []). split; [cbn; auto|]. unfold genD. eapply yields_bind; [|exact Y2].
    cbn [genIvals]. ysbuild.
  - apply wp_bind. pstep1. eapply wp_mono; [apply ivalLoop_sound|]. intros ws [l2 c2] (vs & us & N & W & -> & Y). cbn [app cs] in *.
    apply wp_genT; [auto with pure|]. intros u c1 Y1. apply wp_genT; [auto with pure|]. intros [] c3 Y2.
    exists (DVector name z vs). split; [cbn; auto|]. unfold genD. eapply yields_bind; [|exact Y2]. ysbuild.
Qed.

Lemma parseArguments_names n : forall acc l c, Forall name_ok acc ->
  wp True (parseArguments n acc) (fun ps s' => Forall name_ok ps /\ cs s' = c) (mkSt l c).
Proof.
  induction n as [|n IH]; intros acc l c W; [exact I|]. cbn [parseArguments]. do 4 pstep1.
  assert (W2 : Forall name_ok (acc ++ [name])) by (apply Forall_app; auto).
  destruct (_ =? ")")%char; [apply wp_ret; auto|]. destruct (_ =? ",")%char; [|exact I]. apply IH; auto.
Qed.

Lemma parseFunction_sound n name l c : name_ok name ->
  wp True (parseFunction n name ;;; ClearTopLevelContext)
    (fun _ s' => exists d, goodD d /\ yields (genD false d) c tt (cs s')) (mkSt l c).
Proof.
  intros HN. unfold parseFunction. apply wp_bind. pstep1.
  match goal with |- wp _ (bind ?m _) _ ?s => assert (K : wp True m (fun ps s' => Forall name_ok ps /\ cs s' = c) s) end.
  { destruct (_ =? ")")%char; [apply wp_ret; auto|]. pstep1. apply parseArguments_names. auto. }
  eapply wp_use; [exact K|]. intros ps l2 c2 (W & E). cbn [cs] in E. subst c2.
  do 2 pstep1. eapply wp_use; [apply stmt_sound|]. intros sw l3 c3 (s & W2 & Y). cbn [cs] in Y.
  apply wp_genT; [auto with pure|]. intros u c1 Y1. apply wp_genT; [auto with pure|]. intros [] c4 Y2.
  exists (DFunction name ps s). split; [cbn; auto|]. unfold genD. eapply yields_bind; [|exact Y2]. ysbuild.
Qed.

Lemma declaration_sound n name l c : name_ok name ->
  wp True (declaration n name) (fun _ s' => exists d, goodD d /\ yields (genD false d) c tt (cs s')) (mkSt l c).
Proof.
  intros HN. unfold declaration. pstep1. dr ch.
  destruct (_ =? "(")%char; [apply parseFunction_sound; auto|].
  destruct (_ =? "[")%char; [apply parseVector_sound; auto|].
  apply wp_bind. pstep1.
  pose proof (parseGlobal_sound n name l'0 c HN) as H. unfold wp, bind in H |- *.
  destruct (parseGlobal n name (mkSt l'0 c)); auto.
Qed.

Theorem ParseDeclarations_sound n : forall l c,
  wp True (ParseDeclarations n) (fun _ s' => exists ds, goodP ds /\ yields (genP false ds) c tt (cs s')) (mkSt l c).
Proof.
  induction n as [|n IH]; intros l c; [exact I|]. cbn [ParseDeclarations]. pstep1.
  destruct (_ =? EmptyString)%string.
  - pstep1. dr ch. apply wp_ret. exists []. split; [constructor|]. apply yields_ret.
  - eapply wp_use; [apply declaration_sound; auto|]. intros [] l2 c2 (d & W & Y). cbn [cs] in Y.
    eapply wp_mono; [apply IH|]. intros [] s' (ds & W2 & Y2). exists (d :: ds). split; [constructor; auto|].
    cbn [genP]. eapply yields_bind; eassumption.
Qed.

(** Every accepted source text is compiled to the module generated for some
    well-formed tree. *)
Theorem compile_good inp failing m :
  compile inp failing = Ok m tt -> exists ds, goodP ds /\ generate false ds = Ok m tt.
Proof.
  unfold compile, compile_from. intros H.
  pose proof (ParseDeclarations_sound (enough inp) (mkLexer inp failing) NewCompiler) as S.
  unfold wp in S. destruct (ParseDeclarations _ _) as [[] s|e|]; try discriminate.
  injection H as <-. destruct S as (ds & W & Y). exists ds. split; auto.
  unfold generate. rewrite Y. reflexivity.
Qed.

Corollary compile_sound inp failing m :
  compile inp failing = Ok m tt -> exists ds, wfP ds /\ generate false ds = Ok m tt.
Proof. intros H. destruct (compile_good _ _ _ H) as (ds & W & G). exists ds. auto using goodP_wf. Qed.
