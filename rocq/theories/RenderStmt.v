(** * RenderStmt: the parser on the text of a statement *)
From Coq Require Import List Ascii String ZArith NArith Lia Bool Arith.
From Verif Require Import Base Lexer SpecLex LexerFacts IR Builder Expr Stmt Decl Wp Syntax Pure Pwp SpecText SpecAccept Joins Render.
Import ListNotations.
Open Scope Z_scope.
Open Scope m_scope.

Lemma bind_ext {A B} (m : C A) (f g : A -> C B) s : (forall a s', f a s' = g a s') -> bind m f s = bind m g s.
Proof. intros H. unfold bind. destruct (m s); auto. Qed.
Ltac reassoc := repeat (rewrite ?bassoc; apply bind_ext; intros ? ?); reflexivity.

(** ** First characters *)
Definition ncol (t : list ascii) : Prop := match t with c :: _ => c <> ":"%char | [] => False end.
(** What follows a leading identifier. *)
Definition follows (s' : list ascii) : Prop := forall u t, sk u t -> nid u -> nid t -> ncol t ->
  exists t0, sk (s' ++ u) t0 /\ nid (s' ++ u) /\ nid t0 /\ ncol t0.
Lemma follows_app s' w z : follows s' -> layout w -> (forall u, token_start (z ++ u) /\ nid (z ++ u) /\ ncol (z ++ u)) ->
  follows (s' ++ w ++ z).
Proof.
  intros H W Z u t U N Nt Ct. destruct (Z u) as (Z1 & Z2 & Z3). flat. apply (H (w ++ z ++ u) (z ++ u)); auto using sk_lay, nid_lay.
Qed.
Definition LeadOK (e : expr) (s : list ascii) : Prop :=
  match lead e with
  | Some x => ident x /\ exists s', s = $x ++ s' /\ follows s'
  | None => exists c r, s = c :: r /\ IsLetter c = false
  end.
Lemma LeadOK_app e a s w z : lead e = lead a -> LeadOK a s -> layout w ->
  (forall u, token_start (z ++ u) /\ nid (z ++ u) /\ ncol (z ++ u)) -> LeadOK e (s ++ w ++ z).
Proof.
  unfold LeadOK. intros E. rewrite E. destruct (lead a) as [x|].
  - intros (I & s' & -> & F) W Z. split; auto. exists (s' ++ w ++ z). rewrite <- app_assoc. split; auto using follows_app.
  - intros (c & r & -> & H) _ _. exists c, (r ++ w ++ z). auto.
Qed.
Lemma chr_follow c r : chr_tok c = true -> IsIdent c = false -> c <> ":"%char ->
  forall u, token_start ((c :: r) ++ u) /\ nid ((c :: r) ++ u) /\ ncol ((c :: r) ++ u).
Proof. intros T N C u. cbn [app]. auto using tok_chr, nid_chr. Qed.
Lemma xE_lead l e s : xE l e s -> LeadOK e s.
Proof.
  assert (X : forall l e s, xE l e s -> operand s) by apply xE_first.
  induction 1; try (eapply LeadOK_app; [reflexivity|assumption|assumption|]; apply chr_follow; (reflexivity || discriminate));
  try (unfold LeadOK; cbn [lead]; eexists _, _; split; reflexivity).
  - destruct H as [z' ds N D _]. destruct ds as [|d ds]; [congruence|]. inversion D; subst. exists d, ds. split; auto.
    destruct (IsLetter d) eqn:E; auto. apply IsLetter_letter in E. exfalso. unfold letter in E. unfold digit in H1. cbn [In] in E. lia.
  - destruct H. eexists _, _. split; reflexivity.
  - destruct H. eexists _, _. split; reflexivity.
  - cbn. split; auto. exists []. rewrite app_nil_r. split; auto. intros u t U N Nt Ct. exists t. auto.
  - cbn. split; auto. exists (w ++ $"(" ++ sl). split; auto. apply (follows_app [] w ($"(" ++ sl)); auto.
    + intros u t U N Nt Ct. exists t. auto.
    + apply chr_follow; (reflexivity || discriminate).
  - destruct (incdec_text op x H0) as (ch & -> & HC & _). eapply LeadOK_app; [reflexivity|assumption|assumption|].
    apply chr_follow; destruct HC as [-> | ->]; (reflexivity || discriminate).
  - destruct (incdec_text op x H0) as (ch & -> & HC & _). exists ch, (ch :: w ++ sa). split; auto. destruct HC as [-> | ->]; reflexivity.
  - eapply LeadOK_app; [reflexivity|assumption|assumption|]. intros u. flat.
    assert (Z : operand_like (w2 ++ sb ++ u)) by (apply operand_lay; eauto using operand_app).
    assert (AP' : x_apart x (w2 ++ sb ++ u)).
    { intros e y E. rewrite app_assoc in E. pose proof (operand_like_ne w2 sb (operand_lay w2 sb H3 (X _ _ _ H1))) as Z'.
      destruct (w2 ++ sb) as [|d z]; [contradiction|]. cbn in E. injection E as -> _. exact (H4 _ _ eq_refl). }
    destruct (bin_op_facts op x l r _ H AP' Z) as (_ & _ & T1 & N1 & _). split; [auto|]. split; [auto|].
    destruct op as [[]|[]]; cbn in H; injection H as <- <- <-; cbn; discriminate.
  - eapply LeadOK_app; [reflexivity|assumption|assumption|]. intros u.
    destruct op as [[[]|[]]|]; cbn [asg_op list_ascii_of_string app]; (split; [apply tok_chr; reflexivity|split; [apply nid_chr; reflexivity|discriminate]]).
  - auto.
Qed.

(** ** Statements that are expressions *)
Lemma primaryIdent_skip x u t c : sk u t -> primaryIdent x (S_ u c) = primaryIdent x (S_ t c).
Proof. intros U. unfold primaryIdent. rewrite (wsk _ _ _ _ U), (wsk _ _ _ _ (sk_self _ _ U)). reflexivity. Qed.
Lemma unary_ident n x u c : ident x -> unary (S n) (S_ ($x ++ u) c) = postfix n (S_ ($x ++ u) c).
Proof.
  intros H. cbn [unary]. pose proof (operand_tok _ (operand_app _ u (operand_ident x H))) as T.
  destruct (ident_first x H) as (d & ds & E & LT & _). rewrite E in *. cbn [app] in *.
  rewrite (wsk _ _ (d :: ds ++ u)) by (apply sk_refl; auto). rewrite rck. apply IsLetter_letter in LT.
  repeat match goal with |- context [Ascii.eqb d ?k] => destruct (Ascii.eqb_spec d k) as [->|_]; [discriminate|] end.
  reflexivity.
Qed.
Lemma expression_skip n x u t c : ident x -> sk u t -> nid u -> nid t ->
  parseExpression n (S_ ($x ++ u) c) = parseExpression n (S_ ($x ++ t) c).
Proof.
  intros H U N Nt. unfold parseExpression. destruct n as [|n]; [reflexivity|]. cbn [exprL]. unfold bind. destruct n as [|n]; [reflexivity|].
  rewrite !unary_ident by auto. destruct n as [|n]; [reflexivity|]. cbn [postfix]. unfold bind. destruct n as [|n]; [reflexivity|].
  pose proof (primary_ident n [] x u c lay_nil H N) as E1. pose proof (primary_ident n [] x t c lay_nil H Nt) as E2. cbn [app] in E1, E2.
  rewrite E1, E2, (primaryIdent_skip x u t c U). reflexivity.
Qed.
Definition exprStmt (n : nat) (sw : swctx) : C swctx :=
  parseExpression n ;;;
  lift Whitespace ;;;
  lift (ExpectChar ";" "expect ';' after expression statement") ;;;
  ret sw.
Lemma exprStmt_ok e s w u sw c : xE 15 e s -> layout w ->
  PG (fun n => exprStmt n sw) (s ++ w ++ ";"%char :: u) (genS true (SExpr e) sw) u c.
Proof.
  intros H W. unfold exprStmt. cbn [genS]. apply (PG_bind parseExpression (fun n v => _) _ _ _ (";"%char :: u)); auto with pure.
  - apply (text_expression e s H [] (w ++ ";"%char :: u) (";"%char :: u)); auto using lay_nil, sk_lay, tok_chr, nid_lay, nid_chr, fits_nid; reflexivity.
  - intros v c'. apply (PG_ws (fun n v => _) _ (";"%char :: u)); [apply sk_refl, tok_chr; reflexivity|].
    apply (PG_exp _ _ (fun n v => _)). apply PG_ret.
Qed.
Lemma unreadAllk {B} (k : unit -> C B) l : forall i c, bind (unreadAll l) k (S_ i c) = k tt (S_ (rev l ++ i) c).
Proof.
  induction l as [|x l IH]; intros i c; [reflexivity|]. cbn [unreadAll]. rewrite bassoc, unk, IH. cbn [rev]. rewrite <- app_assoc. reflexivity.
Qed.
Lemma not_keyword x : ~ In x keywords -> forall k, In k keywords -> String.eqb x k = false.
Proof. intros H k I. destruct (String.eqb_spec x k); congruence. Qed.
Ltac nokey H := repeat match goal with |- context [String.eqb ?x ?k] => rewrite (not_keyword x H k) by (cbn; tauto) end.
Lemma statement_letter n sw x u w c : ident x -> nid u -> layout w ->
  statement (S n) sw (S_ (w ++ $x ++ u) c) = keyword n sw (S_ ($x ++ u) c).
Proof.
  intros H N W. cbn [statement]. pose proof (operand_tok _ (operand_app _ u (operand_ident x H))) as T.
  destruct (ident_first x H) as (d & ds & E & LT & _). rewrite E in *. cbn [app] in *.
  rewrite (wsk _ _ (d :: ds ++ u)) by (apply sk_lay; auto). rewrite rdk. apply IsLetter_letter in LT.
  repeat match goal with |- context [Ascii.eqb d ?k] => destruct (Ascii.eqb_spec d k) as [->|_]; [discriminate|] end.
  rewrite LT, unk. reflexivity.
Qed.
Lemma S_expr e s w : xE 15 e s -> not_starting letter s -> layout w -> forall sw w0 u c, layout w0 ->
  PG (fun n => statement n sw) (w0 ++ s ++ w ++ ";"%char :: u) (genS true (SExpr e) sw) u c.
Proof.
  intros H NL W sw w0 u c W0. pose proof (exprStmt_ok e s w u sw c H W) as P.
  assert (O : operand s) by (eapply xE_first; eauto). destruct O as (c0 & r0 & -> & O & _).
  assert (NL' : IsLetter c0 = false) by (destruct (IsLetter c0) eqn:K; auto; apply IsLetter_letter in K; destruct (NL K)).
  apply (PG_step _ (fun n => exprStmt n sw) _ ((c0 :: r0) ++ w ++ ";"%char :: u)); auto.
  intros n. cbn [statement app]. rewrite (wsk _ _ (c0 :: r0 ++ w ++ ";"%char :: u)) by (apply sk_lay; auto; apply tok_chr, opstart_tok; auto).
  rewrite rdk, NL'.
  repeat match goal with |- context [Ascii.eqb c0 ?k] => destruct (Ascii.eqb_spec c0 k) as [->|_]; [discriminate|] end.
  rewrite unk. reflexivity.
Qed.
Lemma word_eq a : forall b p q, Forall ident_char a -> Forall ident_char b -> nid p -> nid q -> a ++ p = b ++ q -> a = b /\ p = q.
Proof.
  induction a as [|x a IH]; intros [|y b] p q HA HB NP NQ E; cbn in E.
  - auto.
  - subst p. inversion HB; subst. destruct (NP H1).
  - subst q. inversion HA; subst. destruct (NQ H1).
  - injection E as -> E. inversion HA; inversion HB; subst. destruct (IH b p q) as [-> ->]; auto.
Qed.
Lemma sk_lay2 w u t : layout w -> sk u t -> sk (w ++ u) t.
Proof. intros W (w' & W' & -> & T). exists (w ++ w'). rewrite app_assoc. auto using layout_app. Qed.
Lemma S_word e x y s w w2 : ident x -> ~ In x keywords -> layout w -> then_ (w ++ y) -> not_starting (eq ":"%char) y ->
  $x ++ y = s ++ w2 ++ $";" -> xE 15 e s -> layout w2 -> forall sw w0 u c, layout w0 ->
  PG (fun n => statement n sw) (w0 ++ $x ++ w ++ y ++ u) (genS true (SExpr e) sw) u c.
Proof.
  intros I NK W N NC E H W2 sw w0 u c W0.
  pose proof (exprStmt_ok e s w2 u sw c H W2) as P.
  assert (E2 : s ++ w2 ++ ";"%char :: u = $x ++ y ++ u).
  { rewrite (app_assoc ($x)), E, <- !app_assoc. reflexivity. }
  rewrite E2 in P.
  assert (Y : exists y1, y = y1 ++ [";"%char]).
  { destruct y as [|d y0].
    - exfalso. rewrite app_nil_r in E. destruct I as (F & _). rewrite Forall_forall in F.
      assert (K : ident_char ";"%char) by (apply F; rewrite E; apply in_or_app; right; apply in_or_app; right; left; reflexivity).
      apply IsIdent_ident in K. discriminate.
    - destruct (@exists_last _ (d :: y0)) as (y1 & b & Ey); [discriminate|]. rewrite Ey in E. rewrite !app_assoc in E. apply app_inj_tail in E.
      destruct E as [_ ->]. exists y1. exact Ey. }
  assert (Yn : exists c0 r0, y = c0 :: r0) by (destruct Y as ([|c0 y1] & ->); eexists _, _; reflexivity).
  assert (N1 : nid (w ++ y ++ u)).
  { rewrite app_assoc. destruct Yn as (c0 & r0 & ->). destruct w; exact N. }
  assert (G : exists t0, sk (w ++ y ++ u) t0 /\ ncol t0 /\ forall n c, parseExpression n (S_ ($x ++ t0) c) = parseExpression n (S_ ($x ++ y ++ u) c)).
  { assert (D : token_start (y ++ u) \/ nid y).
    { destruct Yn as (c0 & r0 & ->). cbn [app]. destruct (IsSpace c0) eqn:SP.
      - right. apply nid_chr. apply IsSpace_white in SP. apply white_chars in SP. tauto.
      - destruct (Ascii.eqb_spec c0 "/") as [->|NS]; [right; apply nid_chr; reflexivity|].
        left. split; [apply IsSpace_white_false; auto|]. congruence. }
    destruct Yn as (c0 & r0 & Ey).
    assert (D2 : token_start (y ++ u) \/ ~ token_start (y ++ u)).
    { rewrite Ey. cbn [app token_start]. destruct (IsSpace c0) eqn:SP.
      - right. intros [K _]. apply K. apply IsSpace_white. auto.
      - destruct (Ascii.eqb_spec c0 "/") as [->|NS].
        + destruct (r0 ++ u) as [|d z]; [left; split; [apply IsSpace_white_false; auto|discriminate]|].
          destruct (Ascii.eqb_spec d "*") as [->|ND]; [right; intros [_ K]; eapply K; reflexivity|].
          left. split; [apply IsSpace_white_false; auto|]. intros _ r' K. injection K as -> _. congruence.
        + left. split; [apply IsSpace_white_false; auto|]. congruence. }
    destruct D2 as [T|T].
    - exists (y ++ u). split; [apply sk_lay; auto|]. split; [|auto]. rewrite Ey in *. cbn in NC |- *. congruence.
    - destruct D as [D|NY]; [contradiction|].
      pose proof (xE_lead _ _ _ H) as LD. unfold LeadOK in LD. destruct (lead e) as [x'|].
      + destruct LD as (I' & s' & -> & F). destruct (F (w2 ++ ";"%char :: u) (";"%char :: u)) as (t0 & T0 & N0 & Nt0 & C0);
          auto using sk_lay, tok_chr, nid_lay, nid_chr; [cbn; discriminate|].
        destruct (word_eq ($x) ($x') (y ++ u) (s' ++ w2 ++ ";"%char :: u)) as [EX EY].
        * apply I.
        * apply I'.
        * rewrite Ey in *. exact NY.
        * exact N0.
        * rewrite <- E2, <- app_assoc. reflexivity.
        * exists t0. rewrite EY. split; [apply sk_lay2; auto|]. split; [auto|]. intros n c'. symmetry. apply expression_skip; auto.
      + exfalso. destruct LD as (c1 & r1 & -> & NL). destruct I as (_ & _ & c2 & r2 & Ex & LT). rewrite Ex in E. injection E as -> _.
        apply IsLetter_letter in LT. congruence. }
  destruct G as (t0 & T0 & C0 & EXP).
  assert (T0n : exists c1 r1, t0 = c1 :: r1) by (destruct t0; [contradiction|eauto]).
  destruct T0n as (c1 & r1 & ->).
  apply (PG_step _ (fun n => keyword n sw) _ ($x ++ w ++ y ++ u)).
  { intros n. apply statement_letter; auto. }
  apply (PG_step _ (fun n => exprStmt n sw) _ ($x ++ y ++ u)); [|exact P].
  intros n. cbn [keyword]. rewrite (lexk _ _ _ _ _ _ (lex_ident [] x _ lay_nil I N1)). rewrite (wsk _ _ _ _ T0).
  nokey NK. rewrite rdk. cbn in C0. destruct (Ascii.eqb_spec c1 ":"); [contradiction|]. rewrite unk.
  rewrite unreadAllk, rev_involutive. unfold exprStmt. unfold bind at 1. rewrite EXP. reflexivity.
Qed.

(** ** Keywords *)
Definition kwbody (n : nat) (sw : swctx) (name : string) : C swctx :=
      if String.eqb name "return" then parseReturn n ;;; ret sw
      else if String.eqb name "auto" then parseAuto n ;;; ret sw
      else if String.eqb name "extrn" then parseExtrn n ;;; ret sw
      else if String.eqb name "if" then parseIf n ;;; ret sw
      else if String.eqb name "while" then parseWhile n ;;; ret sw
      else if String.eqb name "switch" then parseSwitch n ;;; ret sw
      else if String.eqb name "case" then parseCase n sw
      else if String.eqb name "goto" then parseGoto ;;; ret sw
      else
        ch <- readChar ;;
        if Ascii.eqb ch ":" then
          b <- GetOrCreateLabel name ;;
          brIfOpen b ;;;
          SetInsertPoint b ;;;
          statement n sw
        else
          unread ch ;;;
          unreadAll (rev (list_ascii_of_string name)) ;;;
          exprStmt n sw.
Lemma PG_kw x sw w0 u t g r c : ident x -> nid u -> sk u t -> layout w0 ->
  PG (fun n => kwbody n sw x) t g r c -> PG (fun n => statement n sw) (w0 ++ $x ++ u) g r c.
Proof.
  intros I N U W P. apply (PG_step _ (fun n => keyword n sw) _ ($x ++ u)).
  { intros n. apply statement_letter; auto. }
  apply (PG_step _ (fun n => kwbody n sw x) _ t); auto.
  intros n. cbn [keyword]. rewrite (lexk _ _ _ _ _ _ (lex_ident [] x _ lay_nil I N)). rewrite (wsk _ _ _ _ U). reflexivity.
Qed.
Lemma ident_bool x : forallb (fun c => IsIdent c && (code c <? 128)) ($x) = true ->
  match $x with c :: _ => IsLetter c = true | [] => False end -> ident x.
Proof.
  intros H K. rewrite forallb_forall in H. repeat split.
  - apply Forall_forall. intros c I. specialize (H c I). apply andb_prop in H. apply IsIdent_ident. tauto.
  - apply Forall_forall. intros c I. specialize (H c I). apply andb_prop in H. lia.
  - destruct ($x) as [|c r]; [contradiction|]. exists c, r. split; auto. apply IsLetter_letter. auto.
Qed.
Lemma ident_kw x : In x keywords -> ident x.
Proof. cbn. intros [<-|[<-|[<-|[<-|[<-|[<-|[<-|[<-|[]]]]]]]]]; apply ident_bool; reflexivity. Qed.
Lemma gap_nid w u : gap w -> nid (w ++ u).
Proof.
  intros [W N]. destruct W as [|d w' Wd W'|t w' Nc W']; [congruence| |].
  - apply nid_chr. apply white_chars in Wd. tauto.
  - apply nid_chr. reflexivity.
Qed.
Ltac kw k := match goal with |- PG _ (?w0 ++ _ ++ ?w ++ ?ch :: ?u) _ _ _ => apply (PG_kw k _ w0 (w ++ ch :: u) (ch :: u)) end; [apply ident_kw; cbn; tauto|auto using nid_lay, nid_chr|auto using sk_lay, tok_chr|auto|].
(** Expressions inside statements. *)
Lemma PG_expr {B} e s w ch z u (k : nat -> value -> C B) h r c : xE 15 e s -> layout w ->
  sk (z ++ ch :: u) (ch :: u) -> nid (z ++ ch :: u) -> stops 15 (ch :: u) -> Ascii.eqb ch "=" = false ->
  (forall v c', PG (fun n => k n v) (ch :: u) (h v) r c') ->
  PG (fun n => v <- parseExpression n ;; k n v) (w ++ s ++ z ++ ch :: u) (v <- genR true false e ;; h v) r c.
Proof.
  intros H W U N St Q Hk. apply (PG_bind parseExpression k _ _ _ (ch :: u)); auto with pure.
  rewrite <- Q. exact (text_expression e s H w _ _ c W U (fits_nid _ _ N) St).
Qed.
Ltac pexpr := match goal with |- PG _ (?w ++ ?s ++ ?z ++ ?ch :: ?u) _ _ _ =>
  apply (PG_expr _ s w ch z u (fun n v => _)); [assumption|assumption|apply sk_lay; [assumption|apply tok_chr; reflexivity]|
   apply nid_lay; [assumption|apply nid_chr; reflexivity]|reflexivity|reflexivity|intros ? ?] end.
Ltac pws := match goal with |- PG _ ?t _ _ _ => apply (PG_ws (fun n v => _) t t); [apply sk_refl, tok_chr; reflexivity|] end.
Ltac pwl := match goal with |- PG _ (?w ++ ?ch :: ?t) _ _ _ => apply (PG_ws (fun n v => _) (w ++ ch :: t) (ch :: t)); [apply sk_lay; [assumption|apply tok_chr; reflexivity]|] end.
Ltac pexp := apply (PG_exp _ _ (fun n v => _)).
Ltac ppure := match goal with |- PG _ _ (bind ?m _) _ _ => apply (PG_pure m (fun n v => _)); [auto with pure|intros ? ?] end.

Lemma S_return w sw w0 u c : layout w -> layout w0 ->
  PG (fun n => statement n sw) (w0 ++ $"return" ++ w ++ ";"%char :: u) (genS true (SReturn None) sw) u c.
Proof.
  intros W W0. kw "return"%string. change (fun n => kwbody n sw "return") with (fun n => parseReturn n ;;; ret sw).
  apply (PG_same _ (fun n => setTerm (TRet (VInt 0)) ;;; ret sw) _ u); [reflexivity|]. cbn [genS]. apply PG_last. pure_tac.
Qed.
Lemma PG_bassoc {A B D} (p : nat -> C A) (f : nat -> A -> C B) (g : nat -> B -> C D) i h r c :
  PG (fun n => bind (p n) (fun a => bind (f n a) (g n))) i h r c -> PG (fun n => bind (bind (p n) (f n)) (g n)) i h r c.
Proof. apply PG_same. intros n. apply bassoc. Qed.
Lemma S_returne e w w1 s w2 w3 sw w0 u c : xE 15 e s -> layout w -> layout w1 -> layout w2 -> layout w3 -> layout w0 ->
  PG (fun n => statement n sw) (w0 ++ $"return" ++ w ++ "("%char :: w1 ++ s ++ w2 ++ ")"%char :: w3 ++ ";"%char :: u)
    (genS true (SReturn (Some e)) sw) u c.
Proof.
  intros H W W1 W2 W3 W0. kw "return"%string. change (fun n => kwbody n sw "return") with (fun n => parseReturn n ;;; ret sw).
  apply (PG_same _ (fun n => v <- parseExpression n ;; lift Whitespace ;;;
    lift (ExpectChar ")" "expect ')' after 'return' statement") ;;;
    lift Whitespace ;;;
    lift (ExpectChar ";" "expect ';' after 'return' statement") ;;;
    setTerm (TRet v) ;;; ret sw) _ (w1 ++ s ++ w2 ++ ")"%char :: w3 ++ ";"%char :: u)).
  { intros n. unfold parseReturn. rewrite bassoc, rdk. cbn [Ascii.eqb Bool.eqb]. cbv iota.
    unfold bind. destruct (parseExpression n _) as [v s1| |]; auto. destruct (lift Whitespace s1) as [? s2| |]; auto.
    destruct (lift (ExpectChar ")" _) s2) as [? s3| |]; auto. destruct (lift Whitespace s3) as [? s4| |]; auto.
    destruct (lift (ExpectChar ";" _) s4) as [? s5| |]; auto. }
  cbn [genS]. pexpr. pws. pexp. pwl. pexp. apply PG_last. pure_tac.
Qed.

(** ** auto and extrn *)
Lemma lex_xname w x u : layout w -> xname x -> nid u ->
  Identifier (mkLexer (w ++ $x ++ u) false) = Ok x (mkLexer u false).
Proof.
  intros W (H1 & H2 & E) U. rewrite Identifier_ok; auto.
  - rewrite go_string_seven by auto. rewrite string_list. reflexivity.
  - intros K. contradiction.
  - left. auto.
Qed.
Lemma identOrk {B} m (k : string -> C B) w x u c : layout w -> xname x -> nid u ->
  bind (identOr m) k (S_ (w ++ $x ++ u) c) = k x (S_ u c).
Proof.
  intros W I N. unfold bind, identOr, lift, S_. cbn [lx]. rewrite (lex_xname w x u W I N). destruct x; [|reflexivity].
  destruct I as (_ & _ & E). destruct E. reflexivity.
Qed.
Lemma ident_tok c : ident_char c -> chr_tok c = true.
Proof. intros H. apply IsIdent_ident in H. destruct c as [[] [] [] [] [] [] [] []]; vm_compute in H |- *; (reflexivity || discriminate H). Qed.
Lemma xname_tok x u : xname x -> token_start ($x ++ u).
Proof.
  intros (F & _ & NE). destruct ($x) as [|c r]; [congruence|]. inversion F; subst. apply tok_chr, ident_tok; auto.
Qed.
Lemma then_nid w s u : then_ (w ++ s) -> s <> [] -> nid (w ++ s ++ u).
Proof. intros H N. rewrite app_assoc. destruct (w ++ s) eqn:E; [apply app_eq_nil in E; tauto|exact H]. Qed.
Definition autoTail (n : nat) (name : string) (seen : list string) (decls : list (string * Z)) : C (list (string * Z)) :=
      lift Whitespace ;;;
      ch <- readChar ;;
      if Ascii.eqb ch "[" then
        size <- autoSize ;;
        lift Whitespace ;;;
        ch <- readChar ;;
        if Ascii.eqb ch ";" then ret (decls ++ [(name, size)])
        else if Ascii.eqb ch "," then
          autoLoop n (name :: seen) (decls ++ [(name, size)])
        else errorf ("unexpected character '" ++ fmt_c ch ++ "', expect ';' or ','")
      else if Ascii.eqb ch ";" then ret (decls ++ [(name, -1)])
      else if Ascii.eqb ch "," then
        autoLoop n (name :: seen) (decls ++ [(name, -1)])
      else errorf ("unexpected character '" ++ fmt_c ch ++ "', expect ';' or ',' after auto variable").
Lemma sizeNum z s w u c : tNum z s -> layout w ->
  autoSize (S_ (s ++ w ++ "]"%char :: u) c) = Ok z (S_ u c).
Proof.
  intros H W. unfold autoSize. pose proof (tNum_first _ _ H) as (d & r & E & O & _).
  assert (D : Ascii.eqb d "]" = false /\ Ascii.eqb d QUOTE = false).
  { destruct H as [z' ds N D V]. subst ds. inversion D; subst. apply IsDigit_digit in H1.
    split; match goal with |- Ascii.eqb ?a ?b = false => destruct (Ascii.eqb_spec a b) as [->|]; auto; discriminate end. }
  pose proof (lex_num [] z s (w ++ "]"%char :: u) lay_nil H) as L. subst s. cbn [app] in *.
  rewrite (wsk _ _ (d :: r ++ w ++ "]"%char :: u)) by (apply sk_refl, tok_chr, opstart_tok; auto).
  rewrite rdk. destruct D as [-> ->]. rewrite bassoc, unk. rewrite (lexk _ _ _ _ _ _ (L ltac:(auto using nid_lay, nid_chr))).
  tokw W. rewrite expk. reflexivity.
Qed.
Lemma sizeChr z s w u c : tChr z s -> layout w ->
  autoSize (S_ (s ++ w ++ "]"%char :: u) c) = Ok z (S_ u c).
Proof.
  intros H W. unfold autoSize. destruct (lex_chr z s (w ++ "]"%char :: u) H) as (s' & -> & L). cbn [app].
  rewrite (wsk _ _ (QUOTE :: s' ++ w ++ "]"%char :: u)) by (apply sk_refl, tok_chr; reflexivity).
  rewrite rdk. change (Ascii.eqb QUOTE "]") with false. change (Ascii.eqb QUOTE QUOTE) with true. cbv iota.
  rewrite (lexk _ _ _ _ _ _ L). tokw W. rewrite expk. reflexivity.
Qed.
Lemma autoSize_lay w u t c : layout w -> token_start (t ++ u) -> autoSize (S_ (w ++ t ++ u) c) = autoSize (S_ (t ++ u) c).
Proof.
  intros W T. unfold autoSize. rewrite (wsk _ _ (t ++ u)) by auto using sk_lay. rewrite (wsk _ (t ++ u) (t ++ u)) by auto using sk_refl. reflexivity.
Qed.
Lemma autoTail_ok x z s : xAuto x z s -> xname x /\ exists v, s = $x ++ v /\
  forall n seen decls w ch u c, layout w -> ch = ";"%char \/ ch = ","%char -> nid (v ++ w ++ ch :: u) /\
    autoTail n x seen decls (S_ (v ++ w ++ ch :: u) c) =
    (if Ascii.eqb ch ";" then ret (decls ++ [(x, z)]) else autoLoop n (x :: seen) (decls ++ [(x, z)])) (S_ u c).
Proof.
  intros H. assert (F : xname x /\ exists v, s = $x ++ v /\ (v = [] /\ z = -1 \/ exists w1 v', v = w1 ++ "["%char :: v' /\ layout w1 /\
     forall u c, autoSize (S_ (v' ++ u) c) = Ok z (S_ u c))).
  { destruct H.
    - split; auto. exists []. rewrite app_nil_r. auto.
    - split; auto. eexists. split; [reflexivity|]. right. exists w1, (w2 ++ s ++ w3 ++ $"]"). repeat split; auto. intros u c. flat.
      destruct H0 as [H0|[H0|[-> ->]]].
      + rewrite autoSize_lay; auto using sizeNum. apply operand_tok, operand_app. eauto using tNum_first.
      + rewrite autoSize_lay; auto using sizeChr. apply operand_tok, operand_app. eauto using tChr_first.
      + cbn [app]. change ("]"%char :: u) with (["]"%char] ++ u). rewrite app_assoc.
        rewrite autoSize_lay by (auto using layout_app; apply tok_chr; reflexivity). reflexivity. }
  destruct F as (I & v & E & F). split; auto. exists v. split; auto. intros n seen decls w ch u c W HC.
  assert (TC : chr_tok ch = true) by (destruct HC as [-> | ->]; reflexivity).
  assert (NC : IsIdent ch = false) by (destruct HC as [-> | ->]; reflexivity).
  destruct F as [[-> ->]|(w1 & v' & -> & W1 & A)]; cbn [app].
  - split; auto using nid_lay, nid_chr. unfold autoTail. rewrite (wsk _ _ (ch :: u)) by (apply sk_lay; auto using tok_chr). rewrite rdk.
    destruct HC as [-> | ->]; reflexivity.
  - flat. split; [auto using nid_lay, nid_chr|]. unfold autoTail. tokw W1. rewrite rdk. cbn [Ascii.eqb Bool.eqb]. cbv iota.
    rewrite (bindk _ _ _ _ _ (A _ _)). rewrite (wsk _ _ (ch :: u)) by (apply sk_lay; auto using tok_chr). rewrite rdk.
    destruct HC as [-> | ->]; reflexivity.
Qed.
Lemma autos_ok ds s : xAutos ds s -> forall seen decls w u c, layout w ->
  PG (fun n => autoLoop n seen decls) (w ++ s ++ u) (checkAutos seen ds ;;; ret (decls ++ ds)) u c.
Proof.
  induction 1 as [x z s wa HA WA|x z s w1 w2 r sr HA W1 W2 HR IH]; intros seen decls w u c W.
  - destruct (autoTail_ok _ _ _ HA) as (I & v & -> & T). flat.
    apply (PG_step _ (fun n => c <- get ;;
      if mem x seen then errorf ("identifier '" ++ x ++ "' already defined in this scope")
      else if mem x (map fst (c_locals c)) then errorf ("identifier '" ++ x ++ "' already defined in this scope")
      else autoTail n x seen decls) _ (v ++ wa ++ ";"%char :: u)).
    { intros n. destruct (T n seen decls wa ";"%char u c WA ltac:(auto)) as [N _]. cbn [autoLoop]. rewrite identOrk by auto. reflexivity. }
    cbn [checkAutos]. apply PG_assoc. ppure.
    destruct (mem x seen); [apply PG_err|].
    match goal with |- context [mem x (map fst (c_locals ?a))] => destruct (mem x (map fst (c_locals a))) end; [apply PG_err|].
    apply (PG_geq _ _ _ (ret (decls ++ [(x, z)]))); [reflexivity|].
    apply (PG_same _ (fun _ => ret (decls ++ [(x, z)])) _ u); [|apply PG_ret]. intros n. apply (T n); auto.
  - destruct (autoTail_ok _ _ _ HA) as (I & v & -> & T). flat.
    apply (PG_step _ (fun n => c <- get ;;
      if mem x seen then errorf ("identifier '" ++ x ++ "' already defined in this scope")
      else if mem x (map fst (c_locals c)) then errorf ("identifier '" ++ x ++ "' already defined in this scope")
      else autoTail n x seen decls) _ (v ++ w1 ++ ","%char :: w2 ++ sr ++ u)).
    { intros n. destruct (T n seen decls w1 ","%char (w2 ++ sr ++ u) c W1 ltac:(auto)) as [N _]. cbn [autoLoop]. rewrite identOrk by auto. reflexivity. }
    cbn [checkAutos]. apply PG_assoc. ppure.
    destruct (mem x seen); [apply PG_err|].
    match goal with |- context [mem x (map fst (c_locals ?a))] => destruct (mem x (map fst (c_locals a))) end; [apply PG_err|].
    apply (PG_same _ (fun n => autoLoop n (x :: seen) (decls ++ [(x, z)])) _ (w2 ++ sr ++ u)).
    { intros n. apply (T n); auto. }
    apply (PG_geq _ _ _ (checkAutos (x :: seen) r ;;; ret ((decls ++ [(x, z)]) ++ r))); [|apply IH; auto].
    intros s0. rewrite <- app_assoc. reflexivity.
Qed.
Lemma S_auto w ds s sw w0 u c : layout w -> xAutos ds s -> then_ (w ++ s) -> layout w0 ->
  PG (fun n => statement n sw) (w0 ++ $"auto" ++ w ++ s ++ u) (genS true (SAuto ds) sw) u c.
Proof.
  intros W H TH W0. assert (X : exists x y, xname x /\ s = $x ++ y).
  { destruct H; destruct (autoTail_ok _ _ _ H) as (I & v & -> & _); eexists x, _; (split; [auto|rewrite <- app_assoc; reflexivity]). }
  assert (T : token_start (s ++ u)).
  { destruct X as (x & y & I & ->). rewrite <- app_assoc. apply xname_tok, I. }
  assert (NE : s <> []).
  { destruct X as (x & y & (_ & _ & I) & ->). intros K. apply app_eq_nil in K. tauto. }
  apply (PG_kw "auto" _ w0 (w ++ s ++ u) (s ++ u)); auto using then_nid.
  - apply ident_kw. cbn. tauto.
  - apply sk_lay; auto.
  - change (fun n => kwbody n sw "auto") with (fun n => parseAuto n ;;; ret sw). cbn [genS].
    apply (PG_same _ (fun n => decls <- autoLoop n [] [] ;; declareAutos decls ;;; ret sw) _ (s ++ u)).
    { intros n. unfold parseAuto. apply bassoc. }
    apply (PG_geq _ _ _ (decls <- (checkAutos [] ds ;;; ret ([] ++ ds)) ;; declareAutos decls ;;; ret sw)).
    { intros s0. rewrite bassoc. reflexivity. }
    apply (PG_bind (fun n => autoLoop n [] []) (fun n v => _) _ _ _ u); [pure_tac|apply (autos_ok ds s H [] [] []); auto using lay_nil|].
    intros v c'. apply PG_last. pure_tac.
Qed.
Lemma extrn_ok ns s : xNames ";" ns s -> forall w u c, layout w ->
  PG parseExtrn (w ++ s ++ u) (genExtrn ns) u c.
Proof.
  assert (X : forall x w v c, xname x -> layout w -> nid v -> forall n, parseExtrn (S n) (S_ (w ++ $x ++ v) c) =
    (externName x ;;;
      lift Whitespace ;;;
      ch <- readChar ;;
      if Ascii.eqb ch ";" then ret tt
      else if Ascii.eqb ch "," then parseExtrn n
      else errorf ("unexpected character '" ++ fmt_c ch ++ "', expect ';' or ','")) (S_ v c)).
  { intros x w v c I W N n. cbn [parseExtrn]. rewrite identOrk; auto. }
  induction 1 as [x wa I WA|x w1 w2 r sr I W1 W2 HR IH]; intros w u c W; flat.
  - eapply (PG_step _ (fun n => _) _ (wa ++ ";"%char :: u)); [intros n; apply (X x w (wa ++ ";"%char :: u) c); auto using nid_lay, nid_chr|].
    cbn [genExtrn]. ppure. pwl. apply (PG_same _ (fun _ => ret tt) _ u); [reflexivity|apply PG_ret].
  - eapply (PG_step _ (fun n => _) _ (w1 ++ ","%char :: w2 ++ sr ++ u)); [intros n; apply (X x w (w1 ++ ","%char :: w2 ++ sr ++ u) c); auto using nid_lay, nid_chr|].
    cbn [genExtrn]. ppure. pwl. apply (PG_same _ parseExtrn _ (w2 ++ sr ++ u)); [reflexivity|apply IH; auto].
Qed.
Lemma xNames_tok close ns s : xNames close ns s -> forall u, token_start (s ++ u).
Proof. intros H u. destruct H; rewrite <- app_assoc; apply xname_tok; auto. Qed.
Lemma xNames_ne close ns s : xNames close ns s -> s <> [].
Proof. intros H E. destruct H as [x w (_ & _ & I) _|x w1 w2 r sr (_ & _ & I) _ _ _]; apply app_eq_nil in E; tauto. Qed.
Lemma S_extrn w ns s sw w0 u c : layout w -> xNames ";" ns s -> then_ (w ++ s) -> layout w0 ->
  PG (fun n => statement n sw) (w0 ++ $"extrn" ++ w ++ s ++ u) (genS true (SExtrn ns) sw) u c.
Proof.
  intros W H TH W0. pose proof (xNames_ne _ _ _ H) as NE. apply (PG_kw "extrn" _ w0 (w ++ s ++ u) (s ++ u)); auto using then_nid.
  - apply ident_kw. cbn. tauto.
  - apply sk_lay; [auto|eapply xNames_tok; eauto].
  - change (fun n => kwbody n sw "extrn") with (fun n => parseExtrn n ;;; ret sw). cbn [genS].
    apply (PG_bind parseExtrn (fun n v => _) _ _ _ u); [auto with pure|apply (extrn_ok ns s H []); auto using lay_nil|].
    intros v c'. apply PG_ret.
Qed.

(** ** goto and labels *)
Lemma S_goto x w w2 sw w0 u c : layout w -> xname x -> then_ (w ++ $x) -> layout w2 -> layout w0 ->
  PG (fun n => statement n sw) (w0 ++ $"goto" ++ w ++ $x ++ w2 ++ ";"%char :: u) (genS true (SGoto x) sw) u c.
Proof.
  intros W I TH W2 W0. apply (PG_kw "goto" _ w0 _ ($x ++ w2 ++ ";"%char :: u)); auto.
  - apply ident_kw. cbn. tauto.
  - apply then_nid; auto. apply I.
  - apply sk_lay; [auto|]. apply xname_tok, I.
  - change (fun n => kwbody n sw "goto") with (fun _ : nat => parseGoto ;;; ret sw). cbn [genS].
    apply (PG_same _ (fun _ => b <- GetOrCreateLabel x ;;
  setTerm (TBr b) ;;;
  id <- nextLabelID ;;
  dead <- NewBlock ("unreachable." ++ dec id) ;;
  SetInsertPoint dead ;;;
  lift Whitespace ;;;
  lift (ExpectChar ";" "expect ';' after 'goto' statement") ;;; ret sw) _ (w2 ++ ";"%char :: u)).
    { intros n. unfold parseGoto. rewrite bassoc. pose proof (@identOrk swctx "expect label name after 'goto'"
        (fun a => (b <- GetOrCreateLabel a;;
   setTerm (TBr b);;;
   id <- nextLabelID;;
   dead <- NewBlock ("unreachable." ++ dec id);;
   SetInsertPoint dead;;; lift Whitespace;;; lift (ExpectChar ";" "expect ';' after 'goto' statement"));;; ret sw) [] x (w2 ++ ";"%char :: u) c lay_nil I
       ltac:(auto using nid_lay, nid_chr)) as E. cbn [app] in E. rewrite E. clear E. reassoc. }
    do 5 ppure. pwl. pexp. apply PG_ret.
Qed.

Definition SOK (s : stmt) (ss : list ascii) : Prop := forall sw w u t c, layout w -> sk u t -> (openif s = true -> noelse t) ->
  PG (fun n => statement n sw) (w ++ ss ++ u) (genS true s sw) (if openif s then t else u) c.
Definition LOK (l : stmts) (sl : list ascii) : Prop := forall sw w u c, layout w ->
  PG (fun n => blockLoop n sw) (w ++ sl ++ u) (genL true l sw) u c.
(** The characters a statement begins with. *)
Definition sstart (c : ascii) : bool := opstart c || Ascii.eqb c ";" || Ascii.eqb c "{".
Lemma sstart_tok c : sstart c = true -> chr_tok c = true.
Proof. destruct c as [[] [] [] [] [] [] [] []]; vm_compute; intros H; (reflexivity || discriminate H). Qed.
Lemma sstart_brace c : sstart c = true -> Ascii.eqb c "}" = false.
Proof. intros H. destruct (Ascii.eqb_spec c "}") as [->|]; [discriminate|reflexivity]. Qed.
Definition sfirst (ss : list ascii) : Prop := exists c r, ss = c :: r /\ sstart c = true.
Lemma sfirst_op s u : operand s -> sfirst (s ++ u).
Proof. intros (c & r & -> & O & _). exists c, (r ++ u). split; [reflexivity|]. unfold sstart. rewrite O. reflexivity. Qed.
Lemma xS_first s ss : xS s ss -> sfirst ss.
Proof.
  intros H. destruct H; try (apply sfirst_op; try (eapply xE_first; eassumption); apply operand_ident; (assumption || (apply ident_kw; cbn; tauto))).
  - eexists _, _. repeat split.
  - eexists _, _. repeat split.
Qed.
Lemma sfirst_tok ss u : sfirst ss -> token_start (ss ++ u).
Proof. intros (c & r & -> & H). apply tok_chr, sstart_tok, H. Qed.
Lemma xL_tok l sl u : xL l sl -> token_start (sl ++ u).
Proof. intros []; [apply tok_chr; reflexivity|]. rewrite <- app_assoc. apply sfirst_tok. eapply xS_first; eauto. Qed.

Lemma S_label x w w2 s1 ss1 : ident x -> ~ In x keywords -> SOK s1 ss1 -> layout w -> layout w2 ->
  SOK (SLabel x s1) ($x ++ w ++ $":" ++ w2 ++ ss1).
Proof.
  intros I NK H W W2 sw w0 u t c W0 U NE. flat. cbn [openif] in *.
  apply (PG_kw x _ w0 _ (":"%char :: w2 ++ ss1 ++ u)); auto using nid_lay, nid_chr, sk_lay, tok_chr.
  apply (PG_same _ (fun n => b <- GetOrCreateLabel x ;; brIfOpen b ;;; SetInsertPoint b ;;; statement n sw) _ (w2 ++ ss1 ++ u)).
  { intros n. unfold kwbody. nokey NK. rewrite rdk. reflexivity. }
  cbn [genS]. do 3 ppure. apply H; auto.
Qed.
Lemma S_block l w sl : LOK l sl -> layout w -> SOK (SBlock l) ($"{" ++ w ++ sl).
Proof.
  intros H W sw w0 u t c W0 U _. flat. rewrite genS_block.
  apply (PG_step _ (fun n => blockLoop n sw) _ (w ++ sl ++ u)); [|apply H; auto].
  intros n. cbn [statement]. tokw W0. rewrite rdk. reflexivity.
Qed.
Lemma L_nil : LOK SNil ($"}").
Proof.
  intros sw w u c W. apply (PG_step _ (fun _ => ret sw) _ u); [|apply PG_ret].
  intros n. cbn [blockLoop list_ascii_of_string app]. tokw W. rewrite rdk. reflexivity.
Qed.
Lemma L_cons s ss w l sl : xS s ss -> SOK s ss -> layout w -> xL l sl -> LOK l sl ->
  (forall u, openif s = true -> noelse (sl ++ u)) -> LOK (SCons s l) (ss ++ w ++ sl).
Proof.
  intros TS HS W TL HL NE sw w0 u c W0. flat. rewrite genL_cons.
  pose proof (xS_first _ _ TS) as (c0 & r0 & E & T0). pose proof (sstart_tok _ T0) as T. pose proof (sstart_brace _ T0) as NB.
  apply (PG_step _ (fun n => sw <- statement n sw ;; blockLoop n sw) _ (ss ++ w ++ sl ++ u)).
  { intros n. subst ss. cbn [blockLoop app]. rewrite (wsk _ _ (c0 :: r0 ++ w ++ sl ++ u)) by (apply sk_lay; auto using tok_chr).
    rewrite rdk, NB, unk. reflexivity. }
  pose proof (xL_tok l sl u TL) as TT.
  apply (PG_bind (fun n => statement n sw) (fun n v => _) _ _ _ (if openif s then sl ++ u else w ++ sl ++ u)); auto with pure.
  { apply (HS sw [] (w ++ sl ++ u) (sl ++ u)); auto using lay_nil, sk_lay. }
  intros sw' c'. destruct (openif s); [apply (HL sw' [] u c'); apply lay_nil|apply HL; auto].
Qed.

(** ** else *)
Lemma readElse_yes es : forall acc y c, readElse es acc (S_ (es ++ y) c) = Ok (rev es ++ acc, true) (S_ y c).
Proof.
  induction es as [|e es IH]; intros acc y c; [reflexivity|]. cbn [readElse app]. rewrite rck, Ascii.eqb_refl, IH. cbn [rev]. rewrite <- app_assoc. reflexivity.
Qed.
Lemma readElse_no es : forall acc t c, (forall y, t <> es ++ y) -> exists acc' t',
  readElse es acc (S_ t c) = Ok (acc', false) (S_ t' c) /\ rev acc' ++ t' = rev acc ++ t.
Proof.
  induction es as [|e es IH]; intros acc t c N; [destruct (N t); reflexivity|]. cbn [readElse]. destruct t as [|d t].
  - rewrite rck0. exists acc, []. auto.
  - rewrite rck. destruct (Ascii.eqb_spec d e) as [->|].
    + destruct (IH (e :: acc) t c) as (acc' & t' & E & K).
      { intros y ->. apply (N y). reflexivity. }
      exists acc', t'. rewrite E. split; auto. rewrite K. cbn [rev]. rewrite <- app_assoc. reflexivity.
    + exists (d :: acc), t. split; [reflexivity|]. cbn [rev]. rewrite <- app_assoc. reflexivity.
Qed.
Lemma elseFollows_no t c : noelse t -> elseFollows (S_ t c) = Ok false (S_ t c).
Proof.
  intros N. unfold elseFollows. assert (D : (exists y, t = $"else" ++ y) \/ (forall y, t <> $"else" ++ y)).
  { destruct t as [|a1 [|a2 [|a3 [|a4 y]]]]; try (right; intros y; discriminate).
    destruct (ascii_dec a1 "e"), (ascii_dec a2 "l"), (ascii_dec a3 "s"), (ascii_dec a4 "e"); subst; try (right; intros y' E; injection E; congruence).
    left. exists y. reflexivity. }
  destruct D as [[y ->]|D].
  - destruct (N y eq_refl) as (d & y' & -> & HD). rewrite (bindk _ _ _ _ _ (readElse_yes ($"else") [] (d :: y') c)).
    rewrite rck. assert (E : IsLetter d || IsDigit d = true).
    { apply orb_true_iff. destruct HD; [left; apply IsLetter_letter; auto|right; apply IsDigit_digit; auto]. }
    rewrite E. rewrite unreadAllk. reflexivity.
  - destruct (readElse_no ($"else") [] t c D) as (acc' & t' & E & K). rewrite (bindk _ _ _ _ _ E). rewrite unreadAllk. rewrite K. reflexivity.
Qed.
Lemma elseFollows_yes b y c : ~ letter b -> ~ digit b -> elseFollows (S_ ($"else" ++ b :: y) c) = Ok true (S_ y c).
Proof.
  intros NL ND. unfold elseFollows. rewrite (bindk _ _ _ _ _ (readElse_yes ($"else") [] (b :: y) c)). rewrite rck.
  assert (E : IsLetter b || IsDigit b = false).
  { apply orb_false_iff. split; [destruct (IsLetter b) eqn:K; auto; apply IsLetter_letter in K; contradiction|apply IsDigit_false; auto]. }
  rewrite E. reflexivity.
Qed.
Lemma S_if e w w1 se w2 w3 s1 ss1 : xE 15 e se -> SOK s1 ss1 -> layout w -> layout w1 -> layout w2 -> layout w3 ->
  SOK (SIf e s1) ($"if" ++ w ++ $"(" ++ w1 ++ se ++ w2 ++ $")" ++ w3 ++ ss1).
Proof.
  intros TE H W W1 W2 W3 sw w0 u t c W0 U NE. rewrite <- ?app_assoc. cbn [openif] in *. specialize (NE eq_refl).
  change (PG (fun n => statement n sw) (w0 ++ $"if" ++ w ++ "("%char :: w1 ++ se ++ w2 ++ ")"%char :: w3 ++ ss1 ++ u) (genS true (SIf e s1) sw) t c).
  kw "if"%string. change (fun n => kwbody n sw "if") with (fun n => parseIf n ;;; ret sw).
  apply (PG_geq _ _ _ (bind (
      cond <- genR true false e ;;
      id <- nextLabelID ;;
      bThen <- NewBlock ("if." ++ dec id ++ ".then") ;;
      bElse <- NewBlock ("if." ++ dec id ++ ".else") ;;
      bEnd <- NewBlock ("if." ++ dec id ++ ".end") ;;
      cmp <- emitR (fun r => ICmp r PNE cond (VInt 0)) ;;
      setTerm (TCondBr cmp bThen bElse) ;;;
      SetInsertPoint bThen ;;;
      genS true s1 None ;;;
      brIfOpen bEnd ;;;
      SetInsertPoint bElse ;;;
      brIfOpen bEnd ;;;
      SetInsertPoint bEnd) (fun _ => ret sw))).
  { intros s0. ugenS. reassoc. }
  apply (PG_bind parseIf (fun n v => _) _ _ _ t); [pure_tac| |intros; apply PG_ret].
  apply (PG_step _ (fun n =>
      lift (ExpectChar "(" "expect '(' after 'if'") ;;;
      cond <- parseExpression n ;;
      lift Whitespace ;;;
      lift (ExpectChar ")" "expect ')' after condition") ;;;
      id <- nextLabelID ;;
      bThen <- NewBlock ("if." ++ dec id ++ ".then") ;;
      bElse <- NewBlock ("if." ++ dec id ++ ".else") ;;
      bEnd <- NewBlock ("if." ++ dec id ++ ".end") ;;
      cmp <- emitR (fun r => ICmp r PNE cond (VInt 0)) ;;
      setTerm (TCondBr cmp bThen bElse) ;;;
      SetInsertPoint bThen ;;;
      statement n None ;;;
      brIfOpen bEnd ;;;
      SetInsertPoint bElse ;;;
      lift Whitespace ;;;
      els <- elseFollows ;;
      (if els : bool then statement n None ;;; ret tt else ret tt) ;;;
      brIfOpen bEnd ;;;
      SetInsertPoint bEnd) _ ("("%char :: w1 ++ se ++ w2 ++ ")"%char :: w3 ++ ss1 ++ u)); [reflexivity|].
  pexp. pexpr. pws. pexp. do 7 ppure.
  apply (PG_bind (fun n => statement n None) (fun n v => _) _ _ _ (if openif s1 then t else u)); [auto with pure|apply H; auto|intros ? ?].
  do 2 ppure. apply (PG_ws (fun n v => _) _ t); [destruct (openif s1); auto; eapply sk_self; eauto|].
  apply (PG_same _ (fun n => brIfOpen a2 ;;; SetInsertPoint a2) _ t); [intros n; rewrite (bindk _ _ _ _ _ (elseFollows_no t _ NE)); reflexivity|].
  apply PG_last. pure_tac.
Qed.
Lemma S_ifelse e w w1 se w2 w3 s1 ss1 w4 b w5 s2 ss2 : xE 15 e se -> SOK s1 ss1 -> SOK s2 ss2 -> openif s1 = false ->
    layout w -> layout w1 -> layout w2 -> layout w3 -> layout w4 -> ~ letter b -> ~ digit b -> layout w5 ->
  SOK (SIfElse e s1 s2) ($"if" ++ w ++ $"(" ++ w1 ++ se ++ w2 ++ $")" ++ w3 ++ ss1 ++ w4 ++ $"else" ++ [b] ++ w5 ++ ss2).
Proof.
  intros TE H1 H2 NO W W1 W2 W3 W4 BL BD W5 sw w0 u t c W0 U NE. rewrite <- ?app_assoc. cbn [openif] in *.
  change (PG (fun n => statement n sw) (w0 ++ $"if" ++ w ++ "("%char :: w1 ++ se ++ w2 ++ ")"%char :: w3 ++ ss1 ++ w4 ++ $"else" ++ b :: w5 ++ ss2 ++ u)
     (genS true (SIfElse e s1 s2) sw) (if openif s2 then t else u) c).
  kw "if"%string. change (fun n => kwbody n sw "if") with (fun n => parseIf n ;;; ret sw).
  apply (PG_geq _ _ _ (bind (
      cond <- genR true false e ;;
      id <- nextLabelID ;;
      bThen <- NewBlock ("if." ++ dec id ++ ".then") ;;
      bElse <- NewBlock ("if." ++ dec id ++ ".else") ;;
      bEnd <- NewBlock ("if." ++ dec id ++ ".end") ;;
      cmp <- emitR (fun r => ICmp r PNE cond (VInt 0)) ;;
      setTerm (TCondBr cmp bThen bElse) ;;;
      SetInsertPoint bThen ;;;
      genS true s1 None ;;;
      brIfOpen bEnd ;;;
      SetInsertPoint bElse ;;;
      genS true s2 None ;;;
      brIfOpen bEnd ;;;
      SetInsertPoint bEnd) (fun _ => ret sw))).
  { intros s0. ugenS. reassoc. }
  apply (PG_bind parseIf (fun n v => _) _ _ _ (if openif s2 then t else u)); [pure_tac| |intros; apply PG_ret].
  apply (PG_step _ (fun n =>
      lift (ExpectChar "(" "expect '(' after 'if'") ;;;
      cond <- parseExpression n ;;
      lift Whitespace ;;;
      lift (ExpectChar ")" "expect ')' after condition") ;;;
      id <- nextLabelID ;;
      bThen <- NewBlock ("if." ++ dec id ++ ".then") ;;
      bElse <- NewBlock ("if." ++ dec id ++ ".else") ;;
      bEnd <- NewBlock ("if." ++ dec id ++ ".end") ;;
      cmp <- emitR (fun r => ICmp r PNE cond (VInt 0)) ;;
      setTerm (TCondBr cmp bThen bElse) ;;;
      SetInsertPoint bThen ;;;
      statement n None ;;;
      brIfOpen bEnd ;;;
      SetInsertPoint bElse ;;;
      lift Whitespace ;;;
      els <- elseFollows ;;
      (if els : bool then statement n None ;;; ret tt else ret tt) ;;;
      brIfOpen bEnd ;;;
      SetInsertPoint bEnd) _ ("("%char :: w1 ++ se ++ w2 ++ ")"%char :: w3 ++ ss1 ++ w4 ++ $"else" ++ b :: w5 ++ ss2 ++ u)); [reflexivity|].
  pexp. pexpr. pws. pexp. do 7 ppure.
  assert (SK : sk (w4 ++ $"else" ++ b :: w5 ++ ss2 ++ u) ($"else" ++ b :: w5 ++ ss2 ++ u)) by (apply sk_lay; auto; apply tok_chr; reflexivity).
  apply (PG_bind (fun n => statement n None) (fun n v => _) _ _ _ (w4 ++ $"else" ++ b :: w5 ++ ss2 ++ u)); [auto with pure| |intros ? ?].
  { pose proof (fun c => H1 None w3 (w4 ++ $"else" ++ b :: w5 ++ ss2 ++ u) _ c W3 SK) as P. rewrite NO in P. apply P. discriminate. }
  do 2 ppure. apply (PG_ws (fun n v => _) _ ($"else" ++ b :: w5 ++ ss2 ++ u)); [exact SK|].
  apply (PG_same _ (fun n => statement n None ;;; brIfOpen a2 ;;; SetInsertPoint a2) _ (w5 ++ ss2 ++ u)).
  { intros n. rewrite (bindk _ _ _ _ _ (elseFollows_yes b (w5 ++ ss2 ++ u) _ BL BD)). rewrite bassoc. apply bind_ext. reflexivity. }
  apply (PG_bind (fun n => statement n None) (fun n v => _) _ _ _ (if openif s2 then t else u)); [auto with pure|apply H2; auto|intros ? ?].
  apply PG_last. pure_tac.
Qed.
Lemma S_while e w w1 se w2 w3 s1 ss1 : xE 15 e se -> SOK s1 ss1 -> layout w -> layout w1 -> layout w2 -> layout w3 ->
  SOK (SWhile e s1) ($"while" ++ w ++ $"(" ++ w1 ++ se ++ w2 ++ $")" ++ w3 ++ ss1).
Proof.
  intros TE H W W1 W2 W3 sw w0 u t c W0 U NE. rewrite <- ?app_assoc. cbn [openif] in *.
  change (PG (fun n => statement n sw) (w0 ++ $"while" ++ w ++ "("%char :: w1 ++ se ++ w2 ++ ")"%char :: w3 ++ ss1 ++ u) (genS true (SWhile e s1) sw) (if openif s1 then t else u) c).
  kw "while"%string. change (fun n => kwbody n sw "while") with (fun n => parseWhile n ;;; ret sw).
  apply (PG_geq _ _ _ (bind (
      id <- nextLabelID ;;
      bCond <- NewBlock ("while." ++ dec id ++ ".cond") ;;
      bBody <- NewBlock ("while." ++ dec id ++ ".body") ;;
      bEnd <- NewBlock ("while." ++ dec id ++ ".end") ;;
      setTerm (TBr bCond) ;;;
      SetInsertPoint bCond ;;;
      cond <- genR true false e ;;
      cmp <- emitR (fun r => ICmp r PNE cond (VInt 0)) ;;
      setTerm (TCondBr cmp bBody bEnd) ;;;
      SetInsertPoint bBody ;;;
      genS true s1 None ;;;
      brIfOpen bCond ;;;
      SetInsertPoint bEnd) (fun _ => ret sw))).
  { intros s0. ugenS. reassoc. }
  apply (PG_bind parseWhile (fun n v => _) _ _ _ (if openif s1 then t else u)); [pure_tac| |intros; apply PG_ret].
  apply (PG_step _ (fun n =>
      lift (ExpectChar "(" "expect '(' after 'while'") ;;;
      id <- nextLabelID ;;
      bCond <- NewBlock ("while." ++ dec id ++ ".cond") ;;
      bBody <- NewBlock ("while." ++ dec id ++ ".body") ;;
      bEnd <- NewBlock ("while." ++ dec id ++ ".end") ;;
      setTerm (TBr bCond) ;;;
      SetInsertPoint bCond ;;;
      cond <- parseExpression n ;;
      lift Whitespace ;;;
      lift (ExpectChar ")" "expect ')' after condition") ;;;
      cmp <- emitR (fun r => ICmp r PNE cond (VInt 0)) ;;
      setTerm (TCondBr cmp bBody bEnd) ;;;
      SetInsertPoint bBody ;;;
      statement n None ;;;
      brIfOpen bCond ;;;
      SetInsertPoint bEnd) _ ("("%char :: w1 ++ se ++ w2 ++ ")"%char :: w3 ++ ss1 ++ u)); [reflexivity|].
  pexp. do 6 ppure. pexpr. pws. pexp. do 3 ppure.
  apply (PG_bind (fun n => statement n None) (fun n v => _) _ _ _ (if openif s1 then t else u)); [auto with pure|apply H; auto|intros ? ?].
  apply PG_last. pure_tac.
Qed.
(** What can begin a statement after the value of a switch. *)
Lemma switch_start c : sstart c = true -> ~ In c ["("; "!"; "-"; "+"; "*"; "&"]%char ->
  forall r, stops 15 (c :: r) /\ q_of (c :: r) = false.
Proof.
  intros H N r. cbn [stops q_of]. destruct c as [[] [] [] [] [] [] [] []]; vm_compute in H; try discriminate H; try (split; reflexivity);
    exfalso; apply N; cbn; tauto.
Qed.
Lemma S_switch e w se w3 s1 ss1 : xE 15 e se -> xS s1 ss1 -> SOK s1 ss1 -> layout w -> layout w3 ->
    then_ (w ++ se) -> ~ joins se (w3 ++ ss1) ->
    not_starting (fun c => In c ["("; "!"; "-"; "+"; "*"; "&"]%char) ss1 ->
  SOK (SSwitch e s1) ($"switch" ++ w ++ se ++ w3 ++ ss1).
Proof.
  intros TE TS H W W3 N1 N2 N3 sw w0 u t c W0 U NE. rewrite <- ?app_assoc. cbn [openif] in *.
  assert (O : operand se) by (eapply xE_first; eauto).
  destruct (xS_first _ _ TS) as (ch & ss' & E & HC).
  assert (NN : nid (w ++ se ++ w3 ++ ss1 ++ u)).
  { apply then_nid; auto. destruct O as (? & ? & -> & _). discriminate. }
  apply (PG_kw "switch" _ w0 _ (se ++ w3 ++ ss1 ++ u)); auto.
  { apply ident_kw. cbn. tauto. }
  { apply sk_lay; auto. apply operand_tok, operand_app, O. }
  change (fun n => kwbody n sw "switch") with (fun n => parseSwitch n ;;; ret sw).
  assert (HS : stops 15 (ss1 ++ u) /\ q_of (ss1 ++ u) = false /\ token_start (ss1 ++ u) /\ fits se (w3 ++ ss1 ++ u)).
  { rewrite E in N3 |- *. destruct (switch_start ch HC N3 (ss' ++ u)) as [K1 K2]. split; [exact K1|]. split; [exact K2|]. split.
    - apply tok_chr, sstart_tok, HC.
    - intros J. apply N2. rewrite E. rewrite app_assoc in J. destruct J as (p & c1 & t1 & d & r & J1 & J2 & J3).
      destruct (w3 ++ ch :: ss') as [|d' z] eqn:Z; [destruct w3; discriminate|]. injection J2 as <- _.
      exists p, c1, t1, d', z. auto. }
  destruct HS as (S1 & S2 & S3 & S4).
  apply (PG_geq _ _ _ (bind (
      id <- nextLabelID ;;
      v <- genR true (q_of (ss1 ++ u)) e ;;
      bStmts <- NewBlock ("switch." ++ dec id ++ ".stmts") ;;
      bCmp <- NewBlock ("switch." ++ dec id ++ ".cmp") ;;
      bEnd <- NewBlock ("switch." ++ dec id ++ ".end") ;;
      setTerm (TBr bCmp) ;;;
      SetInsertPoint bStmts ;;;
      sw' <- genS true s1 (Some (id, [])) ;;
      brIfOpen bEnd ;;;
      SetInsertPoint bCmp ;;;
      match sw' with
      | Some (_, (_ :: _) as vals) =>
          cases <- switchCases id vals ;;
          setTerm (TSwitch v bEnd cases)
      | _ => setTerm (TBr bEnd)
      end ;;;
      SetInsertPoint bEnd) (fun _ => ret sw))).
  { intros s0. ugenS. rewrite S2. repeat (rewrite ?bassoc; apply bind_ext; intros ? ?). rewrite ?bassoc; reflexivity. }
  apply (PG_bind parseSwitch (fun n v => _) _ _ _ (if openif s1 then t else u)); [pure_tac| |intros; apply PG_ret].
  apply (PG_step _ (fun n =>
      id <- nextLabelID ;;
      v <- parseExpression n ;;
      bStmts <- NewBlock ("switch." ++ dec id ++ ".stmts") ;;
      bCmp <- NewBlock ("switch." ++ dec id ++ ".cmp") ;;
      bEnd <- NewBlock ("switch." ++ dec id ++ ".end") ;;
      setTerm (TBr bCmp) ;;;
      SetInsertPoint bStmts ;;;
      sw <- statement n (Some (id, [])) ;;
      brIfOpen bEnd ;;;
      SetInsertPoint bCmp ;;;
      match sw with
      | Some (_, (_ :: _) as vals) =>
          cases <- switchCases id vals ;;
          setTerm (TSwitch v bEnd cases)
      | _ => setTerm (TBr bEnd)
      end ;;;
      SetInsertPoint bEnd) _ (se ++ w3 ++ ss1 ++ u)); [reflexivity|].
  ppure. apply (PG_bind parseExpression (fun n v => _) _ _ _ (ss1 ++ u)); [auto with pure| |intros ? ?].
  { apply (text_expression e se TE [] (w3 ++ ss1 ++ u) (ss1 ++ u)); auto using lay_nil, sk_lay. }
  do 5 ppure.
  apply (PG_bind (fun n => statement n (Some (a, []))) (fun n v => _) _ _ _ (if openif s1 then t else u)); [auto with pure| |intros ? ?].
  { apply (H _ [] u t); auto using lay_nil. }
  apply PG_last. pure_tac.
Qed.
Lemma S_case z w sz w2 w3 s1 ss1 : layout w -> (tNum z sz \/ tChr z sz) -> then_ (w ++ sz) -> SOK s1 ss1 -> layout w2 -> layout w3 ->
  SOK (SCase z s1) ($"case" ++ w ++ sz ++ w2 ++ $":" ++ w3 ++ ss1).
Proof.
  intros W HZ TH H W2 W3 sw w0 u t c W0 U NE. rewrite <- ?app_assoc. cbn [openif] in *.
  change (PG (fun n => statement n sw) (w0 ++ $"case" ++ w ++ sz ++ w2 ++ ":"%char :: w3 ++ ss1 ++ u) (genS true (SCase z s1) sw) (if openif s1 then t else u) c).
  assert (O : operand sz) by (destruct HZ as [T|T]; eauto using tNum_first, tChr_first).
  assert (CV : forall c, caseValue (S_ (sz ++ w2 ++ ":"%char :: w3 ++ ss1 ++ u) c) = Ok z (S_ (w2 ++ ":"%char :: w3 ++ ss1 ++ u) c)).
  { intros c0. unfold caseValue. destruct HZ as [T|T].
    - pose proof (lex_num [] z sz (w2 ++ ":"%char :: w3 ++ ss1 ++ u) lay_nil T) as L.
      destruct T as [z' ds N D V]. destruct ds as [|d ds]; [congruence|]. inversion D; subst. cbn [app] in *. rewrite rdk.
      apply IsDigit_digit in H2. destruct (Ascii.eqb_spec d QUOTE) as [->|]; [discriminate|]. rewrite H2, unk.
      unfold lift, S_. cbn [lx]. rewrite L by auto using nid_lay, nid_chr. reflexivity.
    - destruct (lex_chr z sz (w2 ++ ":"%char :: w3 ++ ss1 ++ u) T) as (s' & -> & L). cbn [app]. rewrite rdk.
      change (Ascii.eqb QUOTE QUOTE) with true. cbv iota. unfold lift, S_. cbn [lx]. rewrite L. reflexivity. }
  apply (PG_kw "case" _ w0 _ (sz ++ w2 ++ ":"%char :: w3 ++ ss1 ++ u)); auto.
  { apply ident_kw. cbn. tauto. }
  { apply then_nid; auto. destruct O as (? & ? & -> & _). discriminate. }
  { apply sk_lay; auto. apply operand_tok, operand_app, O. }
  change (fun n => kwbody n sw "case") with (fun n => parseCase n sw). cbn [genS]. destruct sw as [[id vals]|].
  - apply (PG_step _ (fun n => lift Whitespace ;;;
          lift (ExpectChar ":" "expect ':' after 'case'") ;;;
          b <- GetOrCreateLabel ("case." ++ dec id ++ "." ++ dec z) ;;
          brIfOpen b ;;;
          SetInsertPoint b ;;;
          statement n (Some (id, vals ++ [z]))) _ (w2 ++ ":"%char :: w3 ++ ss1 ++ u)).
    { intros n. cbn [parseCase]. rewrite (bindk _ _ _ _ _ (CV _)). reflexivity. }
    pwl. pexp. do 3 ppure. apply H; auto.
  - apply (PG_step _ (fun n => errorf "unexpected 'case' outside of 'switch' statements") _ []); [reflexivity|apply PG_err].
Qed.

(** ** All statement texts *)
Lemma xL_end l sl : xL l sl -> exists y, sl = y ++ ["}"%char].
Proof.
  induction 1 as [|s ss w l sl TS W TL IH NE]; [exists []; reflexivity|]. destruct IH as [y ->]. exists (ss ++ w ++ y). rewrite <- !app_assoc. reflexivity.
Qed.
Lemma noelse_app y u : noelse (y ++ ["}"%char]) -> noelse (y ++ ["}"%char] ++ u).
Proof.
  intros H z E. rewrite app_assoc in E.
  assert (D : (exists z1, y ++ ["}"%char] = $"else" ++ z1 /\ z = z1 ++ u) \/ exists z2, $"else" = (y ++ ["}"%char]) ++ z2).
  { destruct (app_eq_app _ _ _ _ E) as (m & [[K1 K2]|[K1 K2]]); [left; exists m; auto|right; exists m; auto]. }
  destruct D as [(z1 & E1 & ->)|(z2 & E2)].
  - destruct (H z1 E1) as (c & y' & -> & K). exists c, (y' ++ u). auto.
  - exfalso. assert (I : In "}"%char ($"else")) by (rewrite E2; apply in_or_app; left; apply in_or_app; right; left; reflexivity).
    cbn in I. destruct I as [I|[I|[I|[I|[]]]]]; discriminate.
Qed.
Theorem stmts_ok : (forall s ss, xS s ss -> SOK s ss) /\ (forall l sl, xL l sl -> LOK l sl).
Proof.
  apply xS_xL_ind.
  - intros sw w u t c W U _. apply (PG_step _ (fun _ => ret sw) _ u); [|apply PG_ret].
    intros n. cbn [statement list_ascii_of_string app]. tokw W. rewrite rdk. reflexivity.
  - intros e s w TE NK W sw w0 u t c W0 U _. rewrite <- !app_assoc. apply S_expr; auto.
  - intros e x y s w w2 I NK W TH NC E TE W2 sw w0 u t c W0 U _. rewrite <- !app_assoc. eapply S_word; eauto.
  - intros l w sl W TL HL. apply S_block; auto.
  - intros w W sw w0 u t c W0 U _. rewrite <- !app_assoc. apply S_return; auto.
  - intros e w w1 s w2 w3 TE W W1 W2 W3 sw w0 u t c W0 U _. rewrite <- !app_assoc. apply S_returne; auto.
  - intros w ds s W H TH sw w0 u t c W0 U _. rewrite <- !app_assoc. apply S_auto; auto.
  - intros w ds s W H TH sw w0 u t c W0 U _. rewrite <- !app_assoc. apply S_extrn; auto.
  - intros. apply S_if; auto.
  - intros. apply S_ifelse; auto.
  - intros. apply S_while; auto.
  - intros. apply S_switch; auto.
  - intros. apply S_case; auto.
  - intros x w w2 W I TH W2 sw w0 u t c W0 U _. rewrite <- !app_assoc. apply S_goto; auto.
  - intros. apply S_label; auto.
  - apply L_nil.
  - intros s ss w l sl TS HS W TL HL NE. apply L_cons; auto. intros u K. destruct (xL_end l sl TL) as [y ->]. rewrite <- app_assoc.
    apply noelse_app. auto.
Qed.
