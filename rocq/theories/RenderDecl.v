(** * RenderDecl: the parser on the text of definitions and files *)
From Coq Require Import List Ascii String ZArith NArith Lia Bool Arith.
From Verif Require Import Base Lexer SpecLex LexerFacts IR Builder Expr Stmt Decl Wp Syntax Pure Pwp FuelMono PropsTotal SpecText SpecAccept Render RenderStmt.
Import ListNotations.
Open Scope Z_scope.
Open Scope m_scope.

(** ** Initial values *)
Lemma liftOrk {A B} msg (m : L A) (k : A -> C B) i a i' c :
  m (mkLexer i false) = Ok a (mkLexer i' false) -> bind (liftOr msg m) k (S_ i c) = k a (S_ i' c).
Proof. intros E. unfold bind, liftOr, lift, S_. cbn [lx]. rewrite E. reflexivity. Qed.
Lemma tNum_head z s : tNum z s -> exists d r, s = d :: r /\ chr_tok d = true /\ IsLetter d = false /\ Ascii.eqb d QUOTE = false /\ Ascii.eqb d DQUOTE = false
  /\ Ascii.eqb d "-" = false /\ Ascii.eqb d ";" = false /\ Ascii.eqb d "]" = false /\ IsIdent d = true.
Proof.
  intros [z' ds N D V]. destruct ds as [|d ds]; [congruence|]. inversion D; subst. apply IsDigit_digit in H1.
  exists d, ds. split; auto. destruct d as [[] [] [] [] [] [] [] []]; vm_compute in H1; try discriminate H1; repeat split.
Qed.
(** A number whose digits are missing. *)
Lemma lex_zero w d u : layout w -> chr_tok d = true -> IsDigit d = false ->
  Number (mkLexer (w ++ d :: u) false) = Ok 0 (mkLexer (d :: u) false).
Proof.
  intros W T D. unfold Number, bind. rewrite (sk_ws _ _ (sk_lay w (d :: u) W (tok_chr _ _ T))). cbn [l_in]. cbn [number_loop]. rewrite D. reflexivity.
Qed.
(** What may follow an initial value. *)
Definition ival_end (d : ascii) : Prop := d = ";"%char \/ d = ","%char.
Lemma ival_end_facts d : ival_end d -> chr_tok d = true /\ IsDigit d = false /\ IsLetter d = false /\ Ascii.eqb d QUOTE = false /\
  Ascii.eqb d DQUOTE = false /\ Ascii.eqb d "-" = false /\ IsIdent d = false.
Proof. intros [->| ->]; repeat split. Qed.
Lemma nid_end w d u : layout w -> ival_end d -> nid (w ++ d :: u).
Proof. intros W [->| ->]; apply nid_lay; auto; apply nid_chr; reflexivity. Qed.
Lemma sk_end w d u : layout w -> ival_end d -> sk (w ++ d :: u) (d :: u).
Proof. intros W [->| ->]; apply sk_lay; auto; apply tok_chr; reflexivity. Qed.
Lemma lex_xnum w z s w2 d u : layout w -> xNum z s -> layout w2 -> ival_end d ->
  exists v, Number (mkLexer (w ++ s ++ w2 ++ d :: u) false) = Ok z (mkLexer v false) /\ sk v (d :: u).
Proof.
  intros W [H|[-> ->]] W2 D.
  - exists (w2 ++ d :: u). split; [|apply sk_end; auto]. apply lex_num; auto. apply nid_end; auto.
  - exists (d :: u). split; [|apply (sk_end []); auto using lay_nil]. cbn [app]. rewrite app_assoc. destruct (ival_end_facts d D) as (F1 & F2 & _).
    apply lex_zero; auto using layout_app.
Qed.
Definition ivalOne : C cword := lift Whitespace ;;; v <- parseIvalConst ;; lift Whitespace ;;; ret v.
Lemma ival_ok v s w0 w d u c : xIval v s -> layout w0 -> layout w -> ival_end d ->
  PG (fun _ => ivalOne) (w0 ++ s ++ w ++ d :: u) (genIval v) (d :: u) c.
Proof.
  intros H W0 W D. pose proof (ival_end_facts d D) as (F1 & F2 & F3 & F4 & F5 & F6 & F7).
  destruct H as [z s [H|[-> ->]]|z z' w1 s H W1 V|z s H|x s H]; cbn [genIval].
  - apply (PG_same _ (fun _ => ret (CInt z)) _ (d :: u)); [|apply PG_ret]. intros _. unfold ivalOne, parseIvalConst.
    pose proof (lex_num [] z s (w ++ d :: u) lay_nil H (nid_end w d u W D)) as L. destruct (tNum_head _ _ H) as (e & r & -> & T & E1 & E2 & E3 & E4 & _). cbn [app] in *.
    rewrite (wsk _ _ (e :: r ++ w ++ d :: u)) by (apply sk_lay; auto using tok_chr).
    rewrite bassoc, rdk, E1, E2, E3, E4, bassoc, unk. rewrite bassoc, (liftOrk _ _ _ _ _ _ _ L), retk. rewrite (wsk _ _ _ _ (sk_end w d u W D)). reflexivity.
  - apply (PG_same _ (fun _ => ret (CInt 0)) _ (d :: u)); [|apply PG_ret]. intros _. unfold ivalOne, parseIvalConst. cbn [app]. rewrite app_assoc.
    rewrite (wsk _ _ (d :: u)) by (apply sk_end; auto using layout_app). rewrite bassoc, rdk, F3, F4, F5, F6, bassoc, unk.
    rewrite bassoc, (liftOrk _ _ _ _ _ _ _ (lex_zero [] d u lay_nil F1 F2)), retk. rewrite (wsk _ _ _ _ (sk_end [] d u lay_nil D)). reflexivity.
  - apply (PG_same _ (fun _ => ret (CInt z')) _ (d :: u)); [|apply PG_ret]. intros _. unfold ivalOne, parseIvalConst. flat.
    rewrite (wsk _ _ ("-"%char :: w1 ++ s ++ w ++ d :: u)) by (apply sk_lay; auto; apply tok_chr; reflexivity).
    destruct (lex_xnum w1 z s w d u W1 H W D) as (v & L & K). rewrite bassoc, rdk.
    change (IsLetter "-") with false. change (Ascii.eqb "-" QUOTE) with false. change (Ascii.eqb "-" DQUOTE) with false. change (Ascii.eqb "-" "-") with true. cbv iota.
    rewrite bassoc, (liftOrk _ _ _ _ _ _ _ L), retk. apply is_word_wrap in V. rewrite (wsk _ _ _ _ K), V. reflexivity.
  - apply (PG_same _ (fun _ => ret (CInt z)) _ (d :: u)); [|apply PG_ret]. intros _. unfold ivalOne, parseIvalConst.
    destruct (lex_chr z s (w ++ d :: u) H) as (s' & -> & L). cbn [app].
    rewrite (wsk _ _ (QUOTE :: s' ++ w ++ d :: u)) by (apply sk_lay; auto; apply tok_chr; reflexivity). rewrite bassoc, rdk.
    change (IsLetter QUOTE) with false. change (Ascii.eqb QUOTE QUOTE) with true. cbv iota.
    rewrite bassoc, (liftOrk _ _ _ _ _ _ _ L), retk. rewrite (wsk _ _ _ _ (sk_end w d u W D)). reflexivity.
  - apply (PG_same _ (fun _ => g <- CreateStringConstant x ;; lift Whitespace ;;; ret (CAddr g 1 0)) _ (w ++ d :: u)).
    { intros _. unfold ivalOne, parseIvalConst.
      destruct (lex_str x s (w ++ d :: u) H) as (s' & -> & L). cbn [app].
      rewrite (wsk _ _ (DQUOTE :: s' ++ w ++ d :: u)) by (apply sk_lay; auto; apply tok_chr; reflexivity). rewrite bassoc, rdk.
      change (IsLetter DQUOTE) with false. change (Ascii.eqb DQUOTE QUOTE) with false. change (Ascii.eqb DQUOTE DQUOTE) with true. cbv iota.
      rewrite bassoc, (lexk _ _ _ _ _ _ L). rewrite bassoc. reflexivity. }
    ppure. apply (PG_same _ (fun _ => ret (CAddr a 1 0)) _ (d :: u)); [|apply PG_ret]. intros _. rewrite (wsk _ _ _ _ (sk_end w d u W D)). reflexivity.
Qed.
Lemma ivalLoop_one n acc s0 : ivalLoop (S n) acc s0 = (v <- ivalOne ;; ch <- readChar ;;
      if Ascii.eqb ch ";" then ret (acc ++ [v])
      else if Ascii.eqb ch "," then ivalLoop n (acc ++ [v])
      else errorf "expect ';' at end of declaration") s0.
Proof.
  cbn [ivalLoop]. unfold ivalOne. rewrite !bassoc. apply bind_ext. intros. rewrite bassoc. apply bind_ext. intros. rewrite bassoc. apply bind_ext. intros. reflexivity.
Qed.
Lemma ivals_ok vs s : xIvals vs s -> forall acc w u c, layout w ->
  PG (fun n => ivalLoop n acc) (w ++ s ++ u) (ws <- genIvals vs ;; ret (acc ++ ws)) u c.
Proof.
  induction 1 as [v s wa H WA|v s w1 w2 r sr H W1 W2 HR IH]; intros acc w u c W.
  - apply (PG_geq _ _ _ (v <- genIval v ;; ret (acc ++ [v]))).
    { intros s0. cbn [genIvals]. rewrite bassoc. apply bind_ext. reflexivity. }
    flat. apply (PG_step _ (fun n => v <- ivalOne ;; ch <- readChar ;;
      if Ascii.eqb ch ";" then ret (acc ++ [v])
      else if Ascii.eqb ch "," then ivalLoop n (acc ++ [v])
      else errorf "expect ';' at end of declaration") _ (w ++ s ++ wa ++ ";"%char :: u)).
    { intros n. apply ivalLoop_one. }
    apply (PG_bind (fun _ => ivalOne) (fun n v => _) _ _ _ (";"%char :: u)); [auto with pure|apply ival_ok; auto; left; reflexivity|].
    intros a c'. apply (PG_same _ (fun _ => ret (acc ++ [a])) _ u); [reflexivity|apply PG_ret].
  - apply (PG_geq _ _ _ (v <- genIval v ;; ws <- genIvals r ;; ret ((acc ++ [v]) ++ ws))).
    { intros s0. cbn [genIvals]. rewrite bassoc. apply bind_ext. intros. rewrite bassoc. apply bind_ext. intros. rewrite <- app_assoc. reflexivity. }
    flat. apply (PG_step _ (fun n => v <- ivalOne ;; ch <- readChar ;;
      if Ascii.eqb ch ";" then ret (acc ++ [v])
      else if Ascii.eqb ch "," then ivalLoop n (acc ++ [v])
      else errorf "expect ';' at end of declaration") _ (w ++ s ++ w1 ++ ","%char :: w2 ++ sr ++ u)).
    { intros n. apply ivalLoop_one. }
    apply (PG_bind (fun _ => ivalOne) (fun n v => _) _ _ _ (","%char :: w2 ++ sr ++ u)); [auto with pure|apply ival_ok; auto; right; reflexivity|].
    intros a c'. apply (PG_same _ (fun n => ivalLoop n (acc ++ [a])) _ (w2 ++ sr ++ u)); [reflexivity|apply IH; auto].
Qed.
(** The text of initial values begins neither as a vector nor as a function. *)
Lemma layout_head w e y : layout w -> w = e :: y -> Ascii.eqb e "(" = false /\ Ascii.eqb e "[" = false /\ Ascii.eqb e ")" = false.
Proof.
  intros W E. destruct W as [|e' w0 W0 LW|b w0 B LW]; [discriminate| |]; injection E as <- _; [|repeat split].
  apply IsSpace_white in W0. destruct e' as [[] [] [] [] [] [] [] []]; vm_compute in W0; try discriminate W0; repeat split.
Qed.
Lemma xNum_head z s d u : xNum z s -> ival_end d -> forall w, layout w -> exists e r, s ++ w ++ d :: u = e :: r /\ Ascii.eqb e "(" = false /\ Ascii.eqb e "[" = false.
Proof.
  intros [H|[-> ->]] D w W.
  - destruct H as [z' ds N Dg V]. destruct ds as [|e ds]; [congruence|]. inversion Dg; subst. apply IsDigit_digit in H1.
    cbn [app]. eexists _, _. split; [reflexivity|]. destruct e as [[] [] [] [] [] [] [] []]; vm_compute in H1; try discriminate H1; repeat split.
  - cbn [app]. destruct w as [|e w]; cbn [app]; eexists _, _; (split; [reflexivity|]).
    + destruct D as [->| ->]; split; reflexivity.
    + edestruct layout_head as (? & ? & _); eauto.
Qed.
Lemma xIvals_head vs s : xIvals vs s -> vs <> [] /\ exists e r, s = e :: r /\ Ascii.eqb e "(" = false /\ Ascii.eqb e "[" = false.
Proof.
  assert (X : forall v s w d u, xIval v s -> layout w -> ival_end d -> exists e r, s ++ w ++ d :: u = e :: r /\ Ascii.eqb e "(" = false /\ Ascii.eqb e "[" = false).
  { intros v s0 w d u [z s' H|z z' w1 s' H W1 V|z s' H|x s' H] W D.
    - eapply xNum_head; eauto.
    - eexists _, _. repeat split.
    - destruct H. eexists _, _. repeat split.
    - destruct H. eexists _, _. repeat split. }
  intros [v s0 w H W|v s0 w1 w2 r sr H W1 W2 _]; (split; [discriminate|]); [apply (X v)|apply (X v)]; auto; [left|right]; reflexivity.
Qed.

Lemma xIvals_last vs s : xIvals vs s -> exists p, s = p ++ [";"%char].
Proof.
  induction 1 as [v s w H W|v s w1 w2 r sr H W1 W2 _ [p IH]].
  - exists (s ++ w). rewrite <- app_assoc. reflexivity.
  - exists (s ++ w1 ++ [","%char] ++ w2 ++ p). rewrite IH, <- !app_assoc. reflexivity.
Qed.

(** ** Parameters *)
Lemma args_ok ns s : xNames ")" ns s -> forall acc w u c, layout w ->
  PG (fun n => parseArguments n acc) (w ++ s ++ u) (ret (acc ++ ns)) u c.
Proof.
  assert (X : forall x w w2 d v c acc, xname x -> layout w -> layout w2 -> chr_tok d = true -> IsIdent d = false ->
    forall n, parseArguments (S n) acc (S_ (w ++ $x ++ w2 ++ d :: v) c) =
      (if Ascii.eqb d ")" then ret (acc ++ [x])
      else if Ascii.eqb d "," then parseArguments n (acc ++ [x])
      else errorf ("unexpected character '" ++ fmt_c d ++ "', expect ')' or ','")) (S_ v c)).
  { intros x w w2 d v c acc I W W2 T NI n. cbn [parseArguments].
    rewrite (wsk _ _ ($x ++ w2 ++ d :: v)) by (apply sk_lay; auto; apply xname_tok, I).
    rewrite (identOrk _ _ [] x (w2 ++ d :: v) c lay_nil I) by auto using nid_lay, nid_chr.
    rewrite (wsk _ _ (d :: v)) by (apply sk_lay; auto using tok_chr). rewrite rdk. reflexivity. }
  induction 1 as [x wa I WA|x w1 w2 r sr I W1 W2 HR IH]; intros acc w u c W; flat.
  - apply (PG_step _ (fun _ => ret (acc ++ [x])) _ u); [|apply PG_ret]. intros n. rewrite X; auto.
  - apply (PG_step _ (fun n => parseArguments n (acc ++ [x])) _ (w2 ++ sr ++ u)); [intros n; rewrite X; auto|].
    apply (PG_geq _ _ _ (ret ((acc ++ [x]) ++ r))); [intros s0; rewrite <- app_assoc; reflexivity|]. apply IH; auto.
Qed.

(** ** One definition, after its name *)
Lemma modk {B} (f : cstate -> cstate) (k : unit -> C B) i c : bind (modify f) k (S_ i c) = k tt (S_ i (f c)).
Proof. reflexivity. Qed.
Definition nameD (d : decl) : string := match d with DGlobal x _ | DVector x _ _ | DFunction x _ _ => x end.
Lemma S_body b sb : xS b sb -> forall w u t c, layout w -> sk u t -> (openif b = true -> noelse t) ->
  PG (fun n => statement n None) (w ++ sb ++ u) (genS true b None) (if openif b then t else u) c.
Proof. intros H. destruct stmts_ok as [K _]. exact (K b sb H None). Qed.
Lemma global_tail x vs s w : xIvals vs s -> layout w -> forall u c,
  PG (fun n => vals <- ivalLoop n [] ;;
    match vals with
    | [v] => DeclareGlobal x (Some v)
    | _ => DeclareGlobalWithMultipleValues x vals
    end) (w ++ s ++ u) (ws <- genIvals vs ;; match ws with
      | [] => DeclareGlobal x None
      | [w] => DeclareGlobal x (Some w)
      | _ => DeclareGlobalWithMultipleValues x ws
      end) u c.
Proof.
  intros H W u c.
  assert (NE : forall s0 s1 l, genIvals vs s0 = Ok l s1 -> l <> []).
  { destruct (xIvals_head _ _ H) as [NE _]. destruct vs as [|v vs]; [congruence|]. intros s0 s1 l. cbn [genIvals]. unfold bind, ret.
    destruct (genIval v s0) as [? s2| |]; try discriminate. destruct (genIvals vs s2); try discriminate. injection 1 as <- _. discriminate. }
  apply (PG_geq _ _ _ (vals <- (ws <- genIvals vs ;; ret ([] ++ ws)) ;; match vals with
    | [v] => DeclareGlobal x (Some v)
    | _ => DeclareGlobalWithMultipleValues x vals
    end)).
  { intros s0. rewrite bassoc. unfold bind, ret. specialize (NE s0). destruct (genIvals vs s0) as [l s1| |]; auto.
    destruct l; [destruct (NE s1 [] eq_refl); reflexivity|reflexivity]. }
  apply (PG_bind (fun n => ivalLoop n []) (fun n v => _) _ _ _ u); [pure_tac|apply ivals_ok; auto|intros a c']. apply PG_last. destruct a as [|? []]; pure_tac.
Qed.
Lemma vsize_ok {B} (k : Z -> C B) z sz w1 w2 v c : xNum z sz -> layout w1 -> layout w2 ->
  (lift Whitespace ;;;
  ch <- readChar ;;
  nwords <- (if Ascii.eqb ch "]" then ret 0
             else
               unread ch ;;;
               z <- liftOr "unexpected end of file, expect vector size after '['" Number ;;
               lift Whitespace ;;;
               lift (ExpectChar "]" "expect ']' after vector size") ;;;
               ret z) ;; k nwords) (S_ (w1 ++ sz ++ w2 ++ "]"%char :: v) c) = k z (S_ v c).
Proof.
  intros [H|[-> ->]] W1 W2.
  - pose proof (lex_num [] z sz (w2 ++ "]"%char :: v) lay_nil H ltac:(auto using nid_lay, nid_chr)) as L.
    destruct (tNum_head _ _ H) as (d & r & -> & T & _ & _ & _ & _ & _ & E & _). cbn [app] in *.
    rewrite (wsk _ _ (d :: r ++ w2 ++ "]"%char :: v)) by (apply sk_lay; auto using tok_chr). rewrite rdk, E, bassoc, unk, bassoc.
    rewrite (liftOrk _ _ _ _ _ _ _ L). rewrite bassoc. tokw W2. rewrite bassoc, expk. reflexivity.
  - cbn [app]. rewrite app_assoc. rewrite (wsk _ _ ("]"%char :: v)) by (apply sk_lay; auto using layout_app, tok_chr). rewrite rdk. reflexivity.
Qed.
Lemma decl_ok d s : xD d s -> exists s', s = $(nameD d) ++ s' /\ xname (nameD d) /\ forall u t c, sk u t -> (openifD d = true -> noelse t) ->
  nid (s' ++ u) /\ PG (fun n => declaration n (nameD d)) (s' ++ u) (genD true d) (if openifD d then t else u) c.
Proof.
  intros H. destruct H as [x I|x w vs s I W HV N NS|x z w1 sz w2 w3 vs s I W1 W2 W3 HZ HV|x w b sb I W HB|x w1 ps sp w b sb I W1 HP W HB];
    cbn [nameD openifD]; eexists; (split; [reflexivity|]); (split; [exact I|]); intros u t c U NE.
  - split; [apply nid_chr; reflexivity|]. flat.
    apply (PG_same _ (fun _ => (modify (removeGlobalByName x) ;;; DeclareGlobal x None) ;;; ClearTopLevelContext) _ u).
    { intros n. unfold declaration. rewrite rck. cbn [Ascii.eqb Bool.eqb]. cbv iota. rewrite bassoc, unk. unfold parseGlobal.
      etransitivity; [rewrite bassoc, modk, bassoc, rdk; reflexivity|]. symmetry. rewrite bassoc, modk. reflexivity. }
    apply (PG_geq _ _ _ ((modify (removeGlobalByName x) ;;; DeclareGlobal x None) ;;; ClearTopLevelContext)); [reflexivity|]. apply PG_last. pure_tac.
  - destruct (xIvals_head _ _ HV) as [VN (d & r & E & Q2 & Q3)].
    assert (ND : nid ((w ++ s) ++ u)).
    { destruct (w ++ s) as [|e y] eqn:Z; [|exact N]. subst s. destruct w; discriminate. }
    split; auto. rewrite <- app_assoc in *.
    assert (HD : exists e y, w ++ s ++ u = e :: y /\ Ascii.eqb e "(" = false /\ Ascii.eqb e "[" = false /\ Ascii.eqb e ";" = false).
    { assert (Q : forall e y, w ++ s = e :: y -> Ascii.eqb e ";" = false).
      { intros e y Z. rewrite Z in NS. destruct (Ascii.eqb_spec e ";") as [->|]; auto. destruct NS. reflexivity. }
      destruct w as [|e w']; cbn [app] in *.
      - subst s. cbn [app]. exists d, (r ++ u). repeat split; eauto.
      - destruct (layout_head _ e w' W eq_refl) as (? & ? & _). exists e, (w' ++ s ++ u). repeat split; eauto. }
    destruct HD as (e & y & E1 & K1 & K2 & K3).
    apply (PG_same _ (fun n => (modify (removeGlobalByName x) ;;; vals <- ivalLoop n [] ;;
    match vals with
    | [v] => DeclareGlobal x (Some v)
    | _ => DeclareGlobalWithMultipleValues x vals
    end) ;;; ClearTopLevelContext) _ (w ++ s ++ u)).
    { intros n. rewrite E1. unfold declaration. rewrite rck, K1, K2. rewrite bassoc, unk. unfold parseGlobal.
      etransitivity; [rewrite bassoc, modk, bassoc, rdk, K3, bassoc, unk; reflexivity|]. symmetry. rewrite bassoc, modk. reflexivity. }
    apply (PG_bind (fun n => modify (removeGlobalByName x) ;;; vals <- ivalLoop n [] ;;
    match vals with
    | [v] => DeclareGlobal x (Some v)
    | _ => DeclareGlobalWithMultipleValues x vals
    end) (fun n v => _) _ _ _ u); [pure_tac| |intros; apply PG_last; auto with pure].
    ppure. apply global_tail; auto.
  - split; [apply nid_chr; reflexivity|]. flat.
    apply (PG_same _ (fun n => (parseVector n x) ;;; ClearTopLevelContext) _ (w1 ++ sz ++ w2 ++ "]"%char :: w3 ++ s ++ u)).
    { intros n. unfold declaration. rewrite rck. reflexivity. }
    apply (PG_bind (fun n => parseVector n x) (fun n v => _) _ _ _ u); [pure_tac| |intros; apply PG_last; auto with pure].
    unfold parseVector. ppure.
    apply (PG_same _ (fun n => lift Whitespace ;;;
      ch <- readChar ;;
      vals <- (if Ascii.eqb ch ";" then ret [] else unread ch ;;; ivalLoop n []) ;;
      DeclareGlobalArray x (if z =? 0 then Z.of_nat (List.length vals) else z) vals) _ (w3 ++ s ++ u)).
    { intros n. exact (vsize_ok _ z sz w1 w2 _ _ HZ W1 W2). }
    destruct HV as [(HV & TS & NS)|[-> ->]].
    + destruct (xIvals_head _ _ HV) as [VN (d & r & E & _)].
      assert (Q1 : Ascii.eqb d ";" = false) by (subst s; destruct (Ascii.eqb_spec d ";") as [->|]; auto; destruct NS; reflexivity).
      assert (T : forall v, token_start (d :: r ++ v)) .
      { intros v. destruct (xIvals_last _ _ HV) as [p P]. rewrite E in P, TS. destruct TS as [T1 T2]. split; [exact T1|]. intros -> r' K.
        destruct r as [|e r]; [destruct p as [|? []]; discriminate|]. injection K as -> _. exact (T2 eq_refl r eq_refl). }
      apply (PG_same _ (fun n => vals <- ivalLoop n [] ;; DeclareGlobalArray x (if z =? 0 then Z.of_nat (List.length vals) else z) vals) _ ([] ++ s ++ u)).
      { intros n. subst s. cbn [app]. rewrite (wsk _ _ (d :: r ++ u)) by (apply sk_lay; auto). rewrite rdk, Q1, bassoc, unk. reflexivity. }
      apply (PG_geq _ _ _ (vals <- (ws <- genIvals vs ;; ret ([] ++ ws)) ;; DeclareGlobalArray x (if z =? 0 then Z.of_nat (List.length vals) else z) vals)).
      { intros s0. rewrite bassoc. reflexivity. }
      apply (PG_bind (fun n => ivalLoop n []) (fun n v => _) _ _ _ u); [pure_tac|apply ivals_ok; auto using lay_nil|intros; apply PG_last; auto with pure].
    + flat. pwl. apply (PG_same _ (fun _ => DeclareGlobalArray x (if z =? 0 then Z.of_nat (List.length (@nil cword)) else z) []) _ u); [reflexivity|].
      cbn [genIvals]. apply (PG_geq _ _ _ (DeclareGlobalArray x (if z =? 0 then Z.of_nat (List.length (@nil cword)) else z) [])); [reflexivity|]. apply PG_last. auto with pure.
  - split; [apply nid_chr; reflexivity|]. flat.
    apply (PG_same _ (fun n => (f <- DeclareFunction x [] ;; StartFunction x f ;;; statement n None ;;; EndFunction) ;;; ClearTopLevelContext) _ (w ++ sb ++ u)).
    { intros n. unfold declaration. rewrite rck. cbn [Ascii.eqb Bool.eqb]. cbv iota. unfold parseFunction. rewrite bassoc, rdk. reflexivity. }
    apply (PG_bind (fun n => f <- DeclareFunction x [] ;; StartFunction x f ;;; statement n None ;;; EndFunction) (fun n v => _) _ _ _ (if openif b then t else u)); [pure_tac| |intros; apply PG_last; auto with pure].
    do 2 ppure. apply (PG_bind (fun n => statement n None) (fun n v => _) _ _ _ (if openif b then t else u)); [auto with pure|apply S_body; auto|intros; apply PG_last; auto with pure].
  - split; [apply nid_chr; reflexivity|]. flat.
    assert (HD : exists e y, w1 ++ sp ++ w ++ sb ++ u = e :: y /\ Ascii.eqb e ")" = false).
    { destruct w1 as [|e w1].
      - assert (O : exists x v, xname x /\ sp = $x ++ v) by (destruct HP; eauto). destruct O as (x0 & v & (D1 & _ & D3) & ->).
        destruct ($x0) as [|e y0]; [congruence|]. inversion D1; subst. apply IsIdent_ident in H1. cbn [app]. eexists _, _. split; [reflexivity|].
        destruct (Ascii.eqb_spec e ")") as [->|]; [discriminate|reflexivity].
      - eexists _, _. split; [reflexivity|]. destruct (layout_head _ e w1 W1 eq_refl) as (_ & _ & Q). exact Q. }
    destruct HD as (e & y & E & K).
    apply (PG_same _ (fun n => (params <- parseArguments n [] ;; f <- DeclareFunction x params ;; StartFunction x f ;;; statement n None ;;; EndFunction) ;;; ClearTopLevelContext)
       _ (w1 ++ sp ++ w ++ sb ++ u)).
    { intros n. rewrite E. unfold declaration. rewrite rck. cbn [Ascii.eqb Bool.eqb]. cbv iota. unfold parseFunction. 
      etransitivity; [rewrite bassoc, rdk, K, bassoc, bassoc, unk; reflexivity|]. symmetry. rewrite bassoc. reflexivity. }
    apply (PG_bind (fun n => params <- parseArguments n [] ;; f <- DeclareFunction x params ;; StartFunction x f ;;; statement n None ;;; EndFunction) (fun n v => _) _ _ _ (if openif b then t else u)); [pure_tac| |intros; apply PG_last; auto with pure].
    apply (PG_geq _ _ _ (params <- ret ([] ++ ps) ;; f <- DeclareFunction x params ;; StartFunction x f ;;; genS true b None ;;; EndFunction)); [intros s0; rewrite retk; reflexivity|].
    apply (PG_bind (fun n => parseArguments n []) (fun n v => _) _ _ _ (w ++ sb ++ u)); [pure_tac|apply args_ok; auto|intros ps' c'].
    do 2 ppure. apply (PG_bind (fun n => statement n None) (fun n v => _) _ _ _ (if openif b then t else u)); [auto with pure|apply S_body; auto|intros; apply PG_last; auto with pure].
Qed.

(** ** Files *)
Lemma xP_tok ds s : xP ds s -> token_start s.
Proof.
  intros [|d s0 w r sr H _ _ _]; [exact I|]. destruct (decl_ok _ _ H) as (s' & -> & I & _).
  rewrite <- app_assoc. apply xname_tok, I.
Qed.
Lemma file_ok ds s : xP ds s -> forall w c, layout w -> PG ParseDeclarations (w ++ s) (genP true ds) [] c.
Proof.
  induction 1 as [|d s w0 r sr H W0 HR IH NE]; intros w c W.
  - rewrite app_nil_r. cbn [genP]. apply (PG_step _ (fun _ => ret tt) _ []); [|apply PG_ret]. intros n. cbn [ParseDeclarations].
    assert (L : Identifier (mkLexer w false) = Ok EmptyString (mkLexer [] false)).
    { pose proof (Identifier_ok w [] [] false W (Forall_nil _) I (fun _ => I) (or_introl eq_refl) (fun _ => eq_refl)) as L. rewrite app_nil_r in L. exact L. }
    rewrite (lexk _ _ _ _ _ _ L). reflexivity.
  - destruct (decl_ok _ _ H) as (s' & -> & I & D). destruct (D (w0 ++ sr) sr c (sk_lay _ _ W0 (xP_tok _ _ HR)) NE) as [N _].
    rewrite <- !app_assoc. cbn [genP].
    apply (PG_step _ (fun n => declaration n (nameD d) ;;; ParseDeclarations n) _ (s' ++ w0 ++ sr)).
    { intros n. cbn [ParseDeclarations]. rewrite (lexk _ _ _ _ _ _ (lex_xname w (nameD d) _ W I N)).
      destruct (nameD d); [|reflexivity]. destruct I as (_ & _ & E). destruct E. reflexivity. }
    apply (PG_bind (fun n => declaration n (nameD d)) (fun n v => _) _ _ _ (if openifD d then sr else w0 ++ sr)); [auto with pure|apply D; auto|].
    { apply sk_lay; auto. eapply xP_tok; eauto. }
    intros a c'. destruct (openifD d); [apply (IH []); apply lay_nil|apply IH; auto].
Qed.

(** A source text is compiled exactly as its tree is. *)
Theorem text_compiles ds s w : xP ds s -> layout w ->
  match generate true ds with
  | Ok m _ => compile (w ++ s) false = Ok m tt
  | Err e => compile (w ++ s) false = Err e
  | Fuel => True
  end.
Proof.
  intros H W. destruct (file_ok ds s H w NewCompiler W) as [n0 F]. set (n := Nat.max n0 (enough (w ++ s))).
  specialize (F n ltac:(lia)). unfold generate, compile, compile_from. unfold S_ in F.
  pose proof (compile_from_fuel (w ++ s) false) as NF. unfold compile_from in NF.
  assert (E : ParseDeclarations n (mkSt (mkLexer (w ++ s) false) NewCompiler) = ParseDeclarations (enough (w ++ s)) (mkSt (mkLexer (w ++ s) false) NewCompiler)).
  { apply fuel_le; [apply ParseDeclarations_mono|lia|exact NF]. }
  rewrite E in F. destruct (genP true ds _) as [[] [l c]| |]; auto.
  - rewrite F. reflexivity.
  - rewrite F. reflexivity.
Qed.

