(** * Render: the parser on the text of an expression
    For every text of a tree (SpecAccept.v) the parser performs the actions of
    that tree (Syntax.v) and stops after the text. *)
From Coq Require Import List Ascii String ZArith NArith Lia Bool Arith.
From Verif Require Import Base Lexer SpecLex LexerFacts IR Builder Expr Stmt Decl Wp Syntax Pure Pwp SpecText SpecAccept Joins.
Import ListNotations.
Open Scope Z_scope.
Open Scope m_scope.

(** ** Parser against generator *)
Definition S_ (i : list ascii) (c : cstate) : st := mkSt (mkLexer i false) c.

(** With enough fuel the parser [p], on the text [i], does what [g] does and
    leaves [r]. *)
Definition PG {A} (p : nat -> C A) (i : list ascii) (g : C A) (r : list ascii) (c : cstate) : Prop :=
  exists n0, forall n, (n0 <= n)%nat ->
    match g (S_ [] c) with
    | Ok a s => p n (S_ i c) = Ok a (S_ r (cs s))
    | Err e => p n (S_ i c) = Err e
    | Fuel => True
    end.

Lemma PG_ret {A} (a : A) i c : PG (fun _ => ret a) i (ret a) i c.
Proof. exists 0%nat. intros n _. reflexivity. Qed.
Lemma PG_err {A} x i r c : PG (fun _ => @errorf st A x) i (errorf x) r c.
Proof. exists 0%nat. intros n _. reflexivity. Qed.
Lemma PG_bind {A B} (p : nat -> C A) (k : nat -> A -> C B) i g h r r2 c : pure g -> PG p i g r c ->
  (forall a c', PG (fun n => k n a) r (h a) r2 c') -> PG (fun n => bind (p n) (k n)) i (bind g h) r2 c.
Proof.
  intros P [n1 H1] H2. unfold PG, bind. pose proof (P (mkLexer [] false) (mkLexer [] false) c) as P1. unfold S_ in *.
  destruct (g (mkSt (mkLexer [] false) c)) as [a [l c1]| |].
  - cbn in P1. destruct P1 as [-> _]. destruct (H2 a c1) as [n2 H3]. unfold S_ in H3. exists (Nat.max n1 n2). intros n L.
    rewrite H1 by lia. cbn [cs]. apply H3. lia.
  - exists n1. intros n L. rewrite (H1 n L). reflexivity.
  - exists 0%nat. auto.
Qed.
Lemma PG_pure {A B} (m : C A) (k : nat -> A -> C B) h i r c : pure m ->
  (forall a c', PG (fun n => k n a) i (h a) r c') -> PG (fun n => bind m (k n)) i (bind m h) r c.
Proof.
  intros P H. apply (PG_bind (fun _ => m) k i m h i r c P); auto. exists 0%nat. intros n _. unfold S_.
  pose proof (P (mkLexer [] false) (mkLexer i false) c) as P1. destruct (m (mkSt (mkLexer [] false) c)) as [a s| |]; eauto.
  apply P1.
Qed.
Lemma PG_last {A} (m : C A) i c : pure m -> PG (fun _ => m) i m i c.
Proof.
  intros P. exists 0%nat. intros n _. unfold S_. pose proof (P (mkLexer [] false) (mkLexer i false) c) as P1.
  destruct (m (mkSt (mkLexer [] false) c)) as [a s| |]; eauto. apply P1.
Qed.
(** One step of the parser. *)
Lemma PG_step {A} (p p' : nat -> C A) i i' g r c : (forall n, p (S n) (S_ i c) = p' n (S_ i' c)) ->
  PG p' i' g r c -> PG p i g r c.
Proof.
  intros E [n0 H]. exists (S n0). intros [|n] L; [lia|]. rewrite E. apply H. lia.
Qed.
Lemma PG_same {A} (p p' : nat -> C A) i i' g r c : (forall n, p n (S_ i c) = p' n (S_ i' c)) ->
  PG p' i' g r c -> PG p i g r c.
Proof. intros E [n0 H]. exists n0. intros n L. rewrite E. apply H. lia. Qed.
Lemma PG_geq {A} (p : nat -> C A) i g g' r c : (forall s, g s = g' s) -> PG p i g' r c -> PG p i g r c.
Proof. intros E [n0 H]. exists n0. intros n L. rewrite E. apply H. lia. Qed.
Lemma PG_lex {A B} (m : L A) (k : nat -> A -> C B) i a i' g r c :
  m (mkLexer i false) = Ok a (mkLexer i' false) -> PG (fun n => k n a) i' g r c ->
  PG (fun n => bind (lift m) (k n)) i g r c.
Proof. intros E. apply PG_same. intros n. unfold bind, lift, S_. cbn [lx Builder.cs]. rewrite E. reflexivity. Qed.
Lemma lexk {A B} (m : L A) (k : A -> C B) i a i' c :
  m (mkLexer i false) = Ok a (mkLexer i' false) -> bind (lift m) k (S_ i c) = k a (S_ i' c).
Proof. intros E. unfold bind, lift, S_. cbn [lx Builder.cs]. rewrite E. reflexivity. Qed.
Lemma rck {B} (k : goerr + ascii -> C B) ch i c : bind rc k (S_ (ch :: i) c) = k (inr ch) (S_ i c).
Proof. reflexivity. Qed.
Lemma rck0 {B} (k : goerr + ascii -> C B) c : bind rc k (S_ [] c) = k (inl EOF) (S_ [] c).
Proof. reflexivity. Qed.
Lemma rdk {B} (k : ascii -> C B) ch i c : bind readChar k (S_ (ch :: i) c) = k ch (S_ i c).
Proof. reflexivity. Qed.
Lemma unk {B} (k : unit -> C B) ch i c : bind (unread ch) k (S_ i c) = k tt (S_ (ch :: i) c).
Proof. reflexivity. Qed.
Lemma unokk {B} (k : unit -> C B) ch i c : bind (unreadOk (inr ch)) k (S_ i c) = k tt (S_ (ch :: i) c).
Proof. reflexivity. Qed.
Lemma retk {A B} (a : A) (k : A -> C B) s : bind (ret a) k s = k a s.
Proof. reflexivity. Qed.
Lemma bassoc {A B D} (m : C A) (f : A -> C B) (g : B -> C D) s : bind (bind m f) g s = bind m (fun a => bind (f a) g) s.
Proof. unfold bind. destruct (m s); auto. Qed.
Lemma PG_assoc {A B D} (p : nat -> C D) i (m : C A) (f : A -> C B) h r c :
  PG p i (bind m (fun a => bind (f a) h)) r c -> PG p i (bind (bind m f) h) r c.
Proof. apply PG_geq. intros. apply bassoc. Qed.

(** ** Layout *)
(** [t] is what remains of [u] when its layout is skipped. *)
Definition sk (u t : list ascii) : Prop := exists w, layout w /\ u = w ++ t /\ token_start t.
Lemma sk_ws u t : sk u t -> Whitespace (mkLexer u false) = Ok tt (mkLexer t false).
Proof. intros (w & H & -> & T). apply Whitespace_skip; auto. left. auto. Qed.
Lemma sk_refl t : token_start t -> sk t t.
Proof. exists []. repeat split; auto using lay_nil. Qed.
Lemma sk_lay w t : layout w -> token_start t -> sk (w ++ t) t.
Proof. exists w. auto. Qed.
Lemma sk_tok u t : sk u t -> token_start t. Proof. intros (w & _ & _ & H). auto. Qed.
Lemma sk_self u t : sk u t -> sk t t. Proof. intros H. apply sk_refl. eapply sk_tok; eauto. Qed.
Lemma wsk {B} (k : unit -> C B) u t c : sk u t -> bind (lift Whitespace) k (S_ u c) = k tt (S_ t c).
Proof. intros H. apply lexk, sk_ws, H. Qed.
Definition chr_tok (c : ascii) : bool := negb (IsSpace c) && negb (Ascii.eqb c "/").
Lemma tok_chr c r : chr_tok c = true -> token_start (c :: r).
Proof.
  unfold chr_tok. intros H. apply andb_prop in H. destruct H as [H1 H2]. apply negb_true_iff in H1, H2.
  split; [apply IsSpace_white_false; auto|]. intros ->. discriminate.
Qed.

(** ** Characters after an expression *)
(** Does [c :: r] go on with an operator accepted at level [l], or a postfix
    operator? *)
Definition cont (l : nat) (c : ascii) (r : list ascii) : bool :=
  (Ascii.eqb c "[" || Ascii.eqb c "(")
  || ((Ascii.eqb c "+" || Ascii.eqb c "-") && ((4 <=? l)%nat || match r with d :: _ => Ascii.eqb d c | [] => false end))
  || ((Ascii.eqb c "*" || Ascii.eqb c "/" || Ascii.eqb c "%") && (3 <=? l)%nat)
  || ((Ascii.eqb c "<" || Ascii.eqb c ">") && (6 <=? l)%nat)
  || (Ascii.eqb c "!" && (7 <=? l)%nat)
  || (Ascii.eqb c "&" && (8 <=? l)%nat)
  || (Ascii.eqb c "|" && (10 <=? l)%nat)
  || (Ascii.eqb c "?" && (13 <=? l)%nat)
  || (Ascii.eqb c "=" && ((14 <=? l)%nat || (7 <=? l)%nat &&
       match r with
       | d :: r' => Ascii.eqb d "=" && negb (match r' with d' :: _ => Ascii.eqb d' "=" | [] => false end)
       | [] => false
       end)).
Definition stops (l : nat) (t : list ascii) : Prop := match t with [] => True | c :: r => cont l c r = false end.
Lemma stops_mono l l' t : (l' <= l)%nat -> stops l t -> stops l' t.
Proof.
  intros H. destruct t as [|c r]; auto. cbn [stops]. unfold cont. intros K.
  repeat (apply orb_false_elim in K; destruct K as [K ?]).
  assert (F : forall n, (n <=? l)%nat = false -> (n <=? l')%nat = false) by (intros n E; apply Nat.leb_gt in E; apply Nat.leb_gt; lia).
  repeat match goal with
  | X : _ && _ = false |- _ => apply andb_false_iff in X
  end.
  repeat (apply orb_false_intro); auto;
  try match goal with
  | X : ?a = false \/ (_ <=? _)%nat = false |- ?a && _ = false => destruct X as [X|X]; [rewrite X; reflexivity|rewrite (F _ X); apply andb_false_r]
  end.
  - destruct H7 as [X|X]; [rewrite X; auto|]. apply orb_false_elim in X. destruct X as [X1 X2]. rewrite (F _ X1), X2. apply andb_false_r.
  - destruct H0 as [X|X]; [rewrite X; auto|]. apply orb_false_elim in X. destruct X as [X1 X2]. rewrite (F _ X1).
    apply andb_false_iff in X2. destruct X2 as [X2|X2]; [rewrite (F _ X2)|rewrite X2]; rewrite ?andb_false_r; auto using andb_false_r.
Qed.

(** ** The loop of parseExpressionWithLevel *)
Lemma tryEqEq_no r c : match r with
       | d :: r' => Ascii.eqb d "=" && negb (match r' with d' :: _ => Ascii.eqb d' "=" | [] => false end)
       | [] => false
       end = false -> tryEqEq (S_ r c) = Ok false (S_ r c).
Proof.
  intros H. unfold tryEqEq. destruct r as [|d r]; [reflexivity|]. rewrite rck. cbn [isCh].
  destruct (Ascii.eqb_spec d "=") as [->|]; [|reflexivity]. destruct r as [|d' r]; [discriminate|]. rewrite rck.
  destruct (Ascii.eqb_spec d' "=") as [->|]; [reflexivity|discriminate].
Qed.
Lemma tryEqEq_yes r c : match r with d' :: _ => Ascii.eqb d' "=" | [] => false end = false ->
  tryEqEq (S_ ("="%char :: r) c) = Ok true (S_ r c).
Proof.
  intros H. unfold tryEqEq. rewrite rck. change (isCh (inr "="%char) "=") with true. cbv iota.
  destruct r as [|d r]; [reflexivity|]. rewrite rck. rewrite H. reflexivity.
Qed.
Lemma loop_stop l v b u t n c : sk u t -> stops l t -> exprLoop (S n) l v b (S_ u c) = rval v b (S_ t c).
Proof.
  intros H K. cbn [exprLoop]. rewrite (wsk _ u t) by auto. destruct t as [|ch r]; [rewrite rck0; reflexivity|].
  rewrite rck. cbn [stops] in K. unfold cont in K.
  repeat (apply orb_false_elim in K; destruct K as [K ?]).
  assert (F : forall a b : bool, a && b = false -> b && a = false) by (intros [] []; auto).
  rewrite (F _ _ H1). rewrite (F _ _ H2). rewrite (F _ _ H3), (F _ _ H4).
  assert (E0 : (14 <=? l)%nat && Ascii.eqb ch "=" = false).
  { destruct (Ascii.eqb ch "="); auto using andb_false_r. rewrite andb_true_l in H0. apply orb_false_elim in H0. destruct H0 as [-> _]. auto. }
  rewrite E0.
  assert (E1 : forall (k : bool -> C value), bind (if (7 <=? l)%nat && Ascii.eqb ch "=" then tryEqEq else ret false) k (S_ r c) = k false (S_ r c)).
  { intros k. destruct (7 <=? l)%nat; [|reflexivity]. destruct (Ascii.eqb ch "="); [|reflexivity].
    rewrite !andb_true_l in H0. apply orb_false_elim in H0. destruct H0 as [_ H0]. cbv iota beta. cbn [andb]. unfold bind. rewrite tryEqEq_no; auto. }
  rewrite E1. cbv iota.
  assert (E2 : (6 <=? l)%nat && Ascii.eqb ch "<" = false /\ (6 <=? l)%nat && Ascii.eqb ch ">" = false).
  { destruct (6 <=? l)%nat; auto. rewrite andb_true_r in H5. apply orb_false_elim in H5. exact H5. }
  destruct E2 as [-> ->].
  assert (E3 : (4 <=? l)%nat && (Ascii.eqb ch "+" || Ascii.eqb ch "-") = false).
  { destruct (_ || _); auto using andb_false_r. rewrite andb_true_l in H7. apply orb_false_elim in H7. destruct H7 as [-> _]. auto. }
  rewrite E3. rewrite (F _ _ H6). reflexivity.
Qed.

Lemma bindk {A B} (m : C A) (k : A -> C B) s a s' : m s = Ok a s' -> bind m k s = k a s'.
Proof. intros E. unfold bind. rewrite E. reflexivity. Qed.
Lemma rval_cases v b c : exists a c', forall i, rval v b (S_ i c) = Ok a (S_ i c').
Proof.
  destruct b.
  - exists (VReg (c_nreg c)), (emitted (fun r => ILoad r v) c). reflexivity.
  - exists v, c. reflexivity.
Qed.
(** Text that can follow an operator: layout or an operand. *)
Definition operand_like (z : list ascii) : Prop :=
  match z with
  | d :: z' => d <> NUL /\ d <> "="%char /\ d <> "<"%char /\ d <> ">"%char /\ d <> "|"%char /\ d <> "%"%char /\
      (d = "!"%char -> match z' with e :: _ => e <> "="%char | [] => True end)
  | [] => False
  end.
(** Binary operators. *)
Lemma loop_bin op x l r lv v b w z n c : x_op op = Some (x, l, r) -> layout w -> (l <= lv)%nat ->
  x_apart x z -> operand_like z ->
  exprLoop (S n) lv v b (S_ (w ++ $x ++ z) c) =
  (lhs <- rval v b ;; rhs <- exprL n r ;; y <- applyCop op lhs rhs ;; exprLoop n lv y false) (S_ z c).
Proof.
  intros B W L AP Z. destruct z as [|d z]; [contradiction|]. destruct Z as (Z0 & Z1 & Z2 & Z3 & _).
  assert (T : forall c0 y, chr_tok c0 = true -> sk (w ++ c0 :: y) (c0 :: y)) by (intros; apply sk_lay; auto using tok_chr).
  assert (ND : forall e, d <> e -> Ascii.eqb d e = false) by (intros e N; destruct (Ascii.eqb_spec d e); congruence).
  assert (AD : forall e, In (x, e) x_glue -> d <> e) by (intros e He ->; exact (AP _ _ eq_refl He)).
  destruct (rval_cases v b c) as (a & c' & R).
  cbn [exprLoop]. destruct op as [[]|[]]; cbn [x_op bin_op] in B; injection B as <- <- <-;
  cbn [list_ascii_of_string app];
  (match goal with |- context [S_ (w ++ ?c0 :: ?y) _] => rewrite (wsk _ _ _ _ (T c0 y eq_refl)) end || (rewrite (wsk _ _ ("/"%char :: d :: z)) by
     (apply sk_lay; auto; split; [apply white_slash|intros _ r' E; injection E as -> _; apply (AD "*"%char); cbn; auto])));
  rewrite rck; cbn [Ascii.eqb Bool.eqb andb orb]; rewrite ?andb_false_r; rewrite ?retk; cbv iota;
  repeat match goal with |- context [(?k <=? lv)%nat && true] => replace (k <=? lv)%nat with true by (symmetry; apply Nat.leb_le; lia) end;
  cbn [andb]; cbv iota.
  - rewrite rck. cbn [isCh]. rewrite (ND _ (AD "+"%char ltac:(cbn; auto))). cbn [runeOf]. rewrite (ND _ Z0). rewrite unokk. reflexivity.
  - rewrite rck. cbn [isCh]. rewrite (ND _ (AD "-"%char ltac:(cbn; auto))). cbn [runeOf]. rewrite (ND _ Z0). rewrite unokk. reflexivity.
  - reflexivity.
  - reflexivity.
  - reflexivity.
  - reflexivity.
  - reflexivity.
  - rewrite !(bindk _ _ _ _ _ (R _)). rewrite rck. reflexivity.
  - rewrite !(bindk _ _ _ _ _ (R _)). rewrite rck. reflexivity.
  - rewrite (bindk _ _ _ _ _ (tryEqEq_yes (d :: z) _ (ND _ Z1))). reflexivity.
  - rewrite rck. reflexivity.
  - rewrite !(bindk _ _ _ _ _ (R _)). rewrite rck. cbn [isCh]. rewrite (ND _ Z1), (ND _ Z2). rewrite unokk. reflexivity.
  - rewrite !(bindk _ _ _ _ _ (R _)). rewrite rck. reflexivity.
  - rewrite !(bindk _ _ _ _ _ (R _)). rewrite rck. cbn [isCh]. rewrite (ND _ Z1), (ND _ Z3). rewrite unokk. reflexivity.
  - rewrite !(bindk _ _ _ _ _ (R _)). rewrite rck. reflexivity.
Qed.

(** The conditional operator. *)
Definition condP (v : value) (b : bool) (n : nat) : C value :=
        lhs <- rval v b ;;
        id <- nextLabelID ;;
        bThen <- NewBlock ("cond.then." ++ dec id) ;;
        bElse <- NewBlock ("cond.else." ++ dec id) ;;
        bEnd <- NewBlock ("cond.end." ++ dec id) ;;
        cmp <- emitR (fun r => ICmp r PNE lhs (VInt 0)) ;;
        setTerm (TCondBr cmp bThen bElse) ;;;
        SetInsertPoint bThen ;;;
        vThen <- exprL n 12 ;;
        eThen <- GetInsertBlock ;;
        setTerm (TBr bEnd) ;;;
        lift Whitespace ;;;
        lift (ExpectChar ":" "expect ':' in ternary operator") ;;;
        SetInsertPoint bElse ;;;
        vElse <- exprL n 13 ;;
        eElse <- GetInsertBlock ;;
        setTerm (TBr bEnd) ;;;
        SetInsertPoint bEnd ;;;
        emitR (fun r => IPhi r [(vThen, eThen); (vElse, eElse)]).
Lemma loop_cond lv v b w z n c : layout w -> (13 <= lv)%nat ->
  exprLoop (S n) lv v b (S_ (w ++ $"?" ++ z) c) = condP v b n (S_ z c).
Proof.
  intros W L. cbn [exprLoop list_ascii_of_string app]. rewrite (wsk _ _ ("?"%char :: z)) by (apply sk_lay; auto using tok_chr).
  rewrite rck. replace (13 <=? lv)%nat with true by (symmetry; apply Nat.leb_le; lia). reflexivity.
Qed.

(** Assignment. *)
Definition asgP (op : option cop) (v : value) (b : bool) (n : nat) : C value :=
   if negb b then errorf "left operand of assignment must be an lvalue" else
   rhs <- exprL n 14 ;;
   match op with
   | Some o => cur <- emitR (fun r => ILoad r v) ;; x <- applyCop o cur rhs ;; emit (IStore x v) ;;; ret x
   | None => emit (IStore rhs v) ;;; ret rhs
   end.
Lemma loop_asg op lv v b w z n c : layout w -> (14 <= lv)%nat -> x_apart (asg_op op) z -> operand_like z ->
  exprLoop (S n) lv v b (S_ (w ++ $(asg_op op) ++ z) c) = asgP op v b n (S_ z c).
Proof.
  unfold asgP.
  intros W L AP Z. destruct z as [|d z]; [contradiction|]. destruct Z as (Z0 & Z1 & Z2 & Z3 & Z4 & Z5 & Z6).
  assert (ND : forall e, d <> e -> Ascii.eqb d e = false) by (intros e N; destruct (Ascii.eqb_spec d e); congruence).
  assert (AD : forall e, In (asg_op op, e) x_glue -> d <> e) by (intros e He ->; exact (AP _ _ eq_refl He)).
  assert (L7 : (7 <=? lv)%nat = true) by (apply Nat.leb_le; lia).
  assert (L13 : (13 <=? lv)%nat = true) by (apply Nat.leb_le; lia).
  assert (L14 : (14 <=? lv)%nat = true) by (apply Nat.leb_le; lia).
  assert (X : exists y, $(asg_op op) = "="%char :: y) by (destruct op as [[[]|[]]|]; eexists; reflexivity).
  destruct X as [y X]. rewrite X. cbn [exprLoop app].
  rewrite (wsk _ _ ("="%char :: y ++ d :: z)) by (apply sk_lay; auto using tok_chr).
  rewrite rck, L7, L13, L14. cbn [Ascii.eqb Bool.eqb andb orb]. cbv iota.
  rewrite (bindk _ _ _ false (S_ (y ++ d :: z) c)).
  2:{ apply tryEqEq_no. destruct op as [[[]|[]]|]; injection X as <-; cbn; auto. destruct (Ascii.eqb_spec d "="); [contradiction|]. reflexivity. }
  cbv iota. destruct op as [[[]|[]]|]; injection X as <-; cbn [app]; rewrite rck; unfold tryEqEqEq; cbn [isCh];
   cbn [Ascii.eqb Bool.eqb andb orb]; cbv iota; rewrite ?retk; cbv iota.
  all: try (destruct b; reflexivity).
  - destruct b; [|reflexivity]. cbn [negb]. unfold compoundOp. cbn [Ascii.eqb Bool.eqb]. cbv iota. rewrite bassoc, rck. cbn [isCh].
    rewrite (ND _ Z1), (ND _ Z2). rewrite bassoc, unokk. reflexivity.
  - destruct b; [|reflexivity]. cbn [negb]. unfold compoundOp. cbn [Ascii.eqb Bool.eqb]. cbv iota. rewrite bassoc, rck. cbn [isCh].
    rewrite (ND _ Z1), (ND _ Z3). rewrite bassoc, unokk. reflexivity.
  - rewrite (ND _ Z1). rewrite retk. destruct b; [|reflexivity]. cbn [negb]. unfold compoundOp.
    rewrite (ND _ (AD "+"%char ltac:(cbn; auto 10))), (ND _ (AD "-"%char ltac:(cbn; auto 10))), (ND _ (AD "*"%char ltac:(cbn; auto 10))),
      (ND _ (AD "/"%char ltac:(cbn; auto 10))), (ND _ (AD "&"%char ltac:(cbn; auto 10))). rewrite (ND _ Z2), (ND _ Z3), (ND _ Z4), (ND _ Z5). destruct (Ascii.eqb_spec d "!") as [->|]; [|rewrite bassoc, unk; reflexivity].
    destruct z as [|e z]; [reflexivity|]. rewrite bassoc, rck. cbn [isCh]. destruct (Ascii.eqb_spec e "=") as [->|]; [exfalso; apply Z6; auto|]. reflexivity.
Qed.

(** ** First characters *)
(** The characters an operand begins with. *)
Definition opstart (c : ascii) : bool :=
  IsIdent c && negb (Ascii.eqb c "_") || existsb (Ascii.eqb c) [QUOTE; DQUOTE; "("; "!"; "-"; "+"; "*"; "&"]%char.
Lemma opstart_tok c : opstart c = true -> chr_tok c = true.
Proof.
  destruct c as [[] [] [] [] [] [] [] []]; vm_compute; intros H; (reflexivity || discriminate H).
Qed.
Lemma ident_first x : ident x -> exists c r, $x = c :: r /\ letter c /\ opstart c = true.
Proof.
  intros (_ & _ & c & r & E & H). exists c, r. repeat split; auto. apply IsLetter_letter in H. unfold opstart, IsIdent. rewrite H. cbn [orb].
  destruct (Ascii.eqb_spec c "_") as [->|]; [discriminate|]. reflexivity.
Qed.
Lemma digit_opstart c : digit c -> opstart c = true.
Proof.
  intros H. apply IsDigit_digit in H. unfold opstart, IsIdent. rewrite H. rewrite orb_true_r. cbn [orb].
  destruct (Ascii.eqb_spec c "_") as [->|]; [discriminate|]. reflexivity.
Qed.
(** A text beginning like an operand. *)
Definition operand (s : list ascii) : Prop :=
  exists c r, s = c :: r /\ opstart c = true /\ (c = "!"%char -> match r with d :: _ => d <> "="%char | [] => False end).
Lemma operand_app s u : operand s -> operand (s ++ u).
Proof.
  intros (c & r & -> & H & K). exists c, (r ++ u). repeat split; auto. intros E. specialize (K E). destruct r; [contradiction|]. auto.
Qed.
Lemma operand_first c r : opstart c = true -> c <> "!"%char -> operand (c :: r).
Proof. intros H N. exists c, r. repeat split; auto. intros E. congruence. Qed.
Lemma operand_ident x : ident x -> operand ($x).
Proof.
  intros H. destruct (ident_first x H) as (c & r & E & HL & O). rewrite E. apply operand_first; auto.
  intros ->. apply IsLetter_letter in HL. discriminate.
Qed.
Lemma white_chars c : white c -> c <> NUL /\ c <> "="%char /\ c <> "<"%char /\ c <> ">"%char /\ c <> "|"%char /\ c <> "%"%char /\ c <> "!"%char /\ IsIdent c = false.
Proof.
  intros H. apply IsSpace_white in H. destruct c as [[] [] [] [] [] [] [] []]; vm_compute in H |- *; try discriminate H; repeat split; discriminate.
Qed.
Lemma opstart_chars c : opstart c = true -> c <> NUL /\ c <> "="%char /\ c <> "<"%char /\ c <> ">"%char /\ c <> "|"%char /\ c <> "%"%char /\ c <> ")"%char.
Proof.
  intros H. destruct c as [[] [] [] [] [] [] [] []]; vm_compute in H; try discriminate H; repeat split; discriminate.
Qed.
Lemma operand_lay w s : layout w -> operand s -> operand_like (w ++ s).
Proof.
  intros W (c & r & -> & H & K). destruct W as [|d w' Wd W'|t w' N W'].
  - cbn. destruct (opstart_chars c H) as (? & ? & ? & ? & ? & ? & ?). repeat split; auto. intros E. specialize (K E). destruct r; auto.
  - cbn. destruct (white_chars d Wd) as (? & ? & ? & ? & ? & ? & ? & ?). repeat split; auto. intros; contradiction.
  - cbn. repeat split; discriminate.
Qed.
Lemma operand_like_ne w s : operand_like (w ++ s) -> match w ++ s with d :: _ => d <> "="%char | [] => False end.
Proof. destruct (w ++ s); cbn; tauto. Qed.
Lemma operand_tok s : operand s -> token_start s.
Proof. intros (c & r & -> & H & _). apply tok_chr, opstart_tok, H. Qed.
Lemma tNum_first z s : tNum z s -> operand s.
Proof.
  intros [z' ds N D _]. destruct ds as [|d ds]; [congruence|]. inversion D; subst. apply operand_first; auto using digit_opstart.
  intros ->. apply IsDigit_digit in H1. discriminate.
Qed.
Lemma tChr_first z s : tChr z s -> operand s.
Proof. intros [z' ds N D _]. apply operand_first; [reflexivity|discriminate]. Qed.
Lemma tStr_first z s : tStr z s -> operand s.
Proof. intros [z' ds N D]. apply operand_first; [reflexivity|discriminate]. Qed.
Lemma xE_first : (forall l e s, xE l e s -> operand s) /\ (forall l s, xA l s -> l <> ENil -> exists w s', s = w ++ s' /\ layout w /\ operand s').
Proof.
  apply xE_xA_ind; intros; auto using operand_app, operand_ident.
  - eapply tNum_first; eauto.
  - eapply tChr_first; eauto.
  - eapply tStr_first; eauto.
  - apply operand_first; [reflexivity|discriminate].
  - destruct op; try discriminate; injection e as <-; apply operand_first; (reflexivity || discriminate).
  - exists "!"%char, (w ++ sa). repeat split. intros _. apply operand_like_ne, operand_lay; auto.
  - apply operand_first; [reflexivity|discriminate].
  - apply operand_first; [reflexivity|discriminate].
  - apply operand_first; [reflexivity|discriminate].
  - congruence.
  - eexists w1, _. split; [reflexivity|]. auto using operand_app.
  - eexists w1, _. split; [reflexivity|]. auto using operand_app.
Qed.

(** ** Tokens *)
Definition nid (u : list ascii) : Prop := not_starting ident_char u.
Lemma nid_chr c r : IsIdent c = false -> nid (c :: r).
Proof. intros H. apply IsIdent_false in H. exact H. Qed.
Lemma nid_lay w u : layout w -> nid u -> nid (w ++ u).
Proof.
  intros [|d w' Wd W'|t w' N W'] H; auto.
  - apply nid_chr. apply white_chars in Wd. tauto.
  - apply nid_chr. reflexivity.
Qed.
Lemma nid_digit u : nid u -> not_starting digit u.
Proof. destruct u; auto. cbn. intros H K. apply H, digit_ident, K. Qed.
Lemma string_list x : string_of_list_ascii ($x) = x.
Proof. apply string_of_list_ascii_of_string. Qed.
Lemma lex_ident w x u : layout w -> ident x -> nid u ->
  Identifier (mkLexer (w ++ $x ++ u) false) = Ok x (mkLexer u false).
Proof.
  intros W (H1 & H2 & c & r & E & _) U. rewrite Identifier_ok; auto.
  - rewrite go_string_seven by auto. rewrite string_list. reflexivity.
  - intros K. rewrite K in E. discriminate.
  - left. auto.
Qed.
Lemma lex_numd w z s u : layout w -> tNum z s -> not_starting digit u -> Number (mkLexer (w ++ s ++ u) false) = Ok z (mkLexer u false).
Proof.
  intros W [z' ds N D V] U. rewrite Number_ok; auto. apply is_word_wrap in V. subst z'.
  destruct ds as [|c ds]; [congruence|]. unfold base_of. change 48 with (code "0"). rewrite <- eqb_code. reflexivity.
Qed.
Lemma lex_num w z s u : layout w -> tNum z s -> nid u -> Number (mkLexer (w ++ s ++ u) false) = Ok z (mkLexer u false).
Proof. intros W H U. apply lex_numd; auto using nid_digit. Qed.
Lemma lex_chr z s u : tChr z s -> exists s', s = QUOTE :: s' /\ Character (mkLexer (s' ++ u) false) = Ok z (mkLexer u false).
Proof.
  intros [z' s' bs I LE V]. eexists. split; [reflexivity|]. rewrite <- app_assoc. cbn [app]. rewrite (Character_ok _ bs) by auto.
  apply is_word_wrap in V. subst z'. reflexivity.
Qed.
Lemma lex_str z s u : tStr z s -> exists s', s = DQUOTE :: s' /\ String_ (mkLexer (s' ++ u) false) = Ok z (mkLexer u false).
Proof.
  intros [s' bs I A]. eexists. split; [reflexivity|]. rewrite <- app_assoc. cbn [app]. rewrite (String_ok _ bs) by auto.
  rewrite go_string_seven by auto. reflexivity.
Qed.
Lemma expk {B} ch msg (k : unit -> C B) i c : bind (lift (ExpectChar ch msg)) k (S_ (ch :: i) c) = k tt (S_ i c).
Proof. apply lexk. unfold ExpectChar, bind, tryRead. cbn [l_in]. rewrite Ascii.eqb_refl. reflexivity. Qed.

Lemma PG_exp {B} ch msg (k : nat -> unit -> C B) i g r c : PG (fun n => k n tt) i g r c ->
  PG (fun n => bind (lift (ExpectChar ch msg)) (k n)) (ch :: i) g r c.
Proof. apply PG_same. intros n. apply expk. Qed.
Lemma PG_ws {B} (k : nat -> unit -> C B) u t g r c : sk u t -> PG (fun n => k n tt) t g r c ->
  PG (fun n => bind (lift Whitespace) (k n)) u g r c.
Proof. intros H. apply PG_same. intros n. apply wsk, H. Qed.

(** ** Claims about expression texts *)
(** The text [u] can follow [s]. *)
Definition fits (s u : list ascii) : Prop := ~ joins s u.
Lemma fits_nid s u : nid u -> fits s u.
Proof. apply joins_nid. Qed.
Lemma fits_sub pre s u : other_end pre -> fits (pre ++ s) u -> fits s u.
Proof. intros O H J. apply H, joins_up; auto. Qed.
Lemma fits_lay s w u : layout w -> fits s u -> fits s (w ++ u).
Proof.
  intros [|d w' Wd W'|t w' N W'] H; auto.
  - apply fits_nid, nid_chr. apply white_chars in Wd. tauto.
  - apply fits_nid, nid_chr. reflexivity.
Qed.
Definition q_of (t : list ascii) : bool := match t with c :: _ => Ascii.eqb c "=" | [] => false end.
Definition nocall (e : expr) (t : list ascii) : Prop :=
  match e with EVar _ => match t with c :: _ => c <> "("%char | [] => True end | ECallee _ => False | _ => True end.
Definition PostOK (e : expr) (s : list ascii) : Prop := forall w u t h r c,
  layout w -> sk u t -> fits s u -> nocall e t ->
  (forall v l' c' u', sk u' t -> PG (fun n => postfixLoop n v l') u' (h (v, l')) r c') ->
  PG postfix (w ++ s ++ u) (bind (gen true (q_of t) e) h) r c.
Definition UnOK (e : expr) (s : list ascii) : Prop := forall w u t c,
  layout w -> sk u t -> fits s u -> stops 0 t -> PG unary (w ++ s ++ u) (gen true (q_of t) e) t c.
Definition F1OK (l : nat) (e : expr) (s : list ascii) : Prop := forall lv w u t h r c,
  (l <= lv)%nat -> layout w -> sk u t -> fits s u -> stops (Nat.pred l) t ->
  (forall v l' c' u', sk u' t -> PG (fun n => exprLoop n lv v l') u' (h (v, l')) r c') ->
  PG (fun n => exprL n lv) (w ++ s ++ u) (bind (gen true (q_of t) e) h) r c.
Definition F2OK (l : nat) (e : expr) (s : list ascii) : Prop := forall lv w u t c,
  (l <= lv)%nat -> layout w -> sk u t -> fits s u -> stops lv t ->
  PG (fun n => exprL n lv) (w ++ s ++ u) (genR true (q_of t) e) t c.
Definition AOK (l : exprs) (sl : list ascii) : Prop := forall acc u c,
  PG (fun n => callArgs n acc) (sl ++ u) (vs <- genArgs true l ;; ret (acc ++ vs)) u c.

Lemma F1_F2 l e s : F1OK l e s -> F2OK l e s.
Proof.
  intros H lv w u t c L W U N K. unfold genR. apply (H lv w u t (fun p => let '(v, b) := p in rval v b) t c); auto.
  - eapply stops_mono; [|eauto]. lia.
  - intros v b c' u' U'. eapply PG_step; [|apply PG_last; auto with pure]. intros n. apply loop_stop; auto.
Qed.
Lemma Un_F1 l e s : UnOK e s -> F1OK l e s.
Proof.
  intros H lv w u t h r c L W U N K Hk.
  apply (PG_step _ (fun n => '(v, b) <- unary n ;; exprLoop n lv v b) _ (w ++ s ++ u)); [reflexivity|].
  apply (PG_bind unary (fun n p => let '(v, b) := p in exprLoop n lv v b) _ _ _ t); auto with pure.
  - apply H; auto. eapply stops_mono; [|eauto]. lia.
  - intros [v b] c'. apply Hk. eapply sk_self; eauto.
Qed.
(** Texts of primary and postfix expressions. *)
Definition first1 (s : list ascii) : Prop :=
  exists c r, s = c :: r /\ opstart c = true /\ ~ In c ["!"; "-"; "+"; "*"; "&"]%char.
Lemma first1_app s u : first1 s -> first1 (s ++ u).
Proof. intros (c & r & -> & H). exists c, (r ++ u). auto. Qed.
Lemma Post_Un e s : PostOK e s -> first1 s -> (forall x, e <> ECallee x) -> UnOK e s.
Proof.
  intros H (c0 & r0 & E & O & NI) NC w u t c W U N K.
  assert (X : forall n, unary (S n) (S_ (w ++ s ++ u) c) = postfix n (S_ ([] ++ s ++ u) c)).
  { intros n. cbn [unary]. rewrite E. cbn [app]. rewrite (wsk _ _ (c0 :: r0 ++ u)) by (apply sk_lay; auto; apply tok_chr, opstart_tok; auto).
    rewrite rck. cbn [In] in NI.
    repeat match goal with |- context [Ascii.eqb c0 ?k] => destruct (Ascii.eqb_spec c0 k) as [->|_]; [tauto|] end.
    reflexivity. }
  apply (PG_step _ postfix _ ([] ++ s ++ u)); [exact X|].
  apply (PG_geq _ _ _ (bind (gen true (q_of t) e) ret)).
  { intros s0. unfold bind. destruct (gen _ _ _ _) as [[]| |]; reflexivity. }
  apply H; auto using lay_nil.
  - destruct e; cbn; auto; [|destruct (NC _ eq_refl)]. destruct t; auto. intros ->. cbn in K. discriminate.
  - intros v l' c' u' U'. eapply PG_step with (p' := fun _ => ret (v, l')) (i' := t); [|apply PG_ret].
    intros n. cbn [postfixLoop]. rewrite (wsk _ _ _ _ U'). destruct t as [|ch r]; [reflexivity|]. rewrite rck.
    cbn [stops] in K. unfold cont in K. repeat (apply orb_false_elim in K; destruct K as [K ?]). 
    rewrite K. match goal with X : Ascii.eqb ch "(" = false |- _ => rewrite X end.
    match goal with X : (Ascii.eqb ch "+" || Ascii.eqb ch "-") && _ = false |- _ => rename X into H7 end.
    destruct (Ascii.eqb ch "+" || Ascii.eqb ch "-"); [|reflexivity]. cbn [andb] in H7. apply orb_false_elim in H7. destruct H7 as [_ H7].
    destruct r as [|d r]; [reflexivity|]. rewrite rck. cbn [isCh]. rewrite H7. reflexivity.
Qed.

(** Equality of generators up to association. *)
Ltac geq := let s := fresh in intros s; try ugen; cbn [q_of Ascii.eqb Bool.eqb andb]; unfold genR, bind, ret, errorf, fail;
  cbn [app]; repeat (match goal with |- context [match ?m with _ => _ end] => lazymatch m with context [match _ with _ => _ end] => fail | _ => destruct m end end; cbn [app]); try reflexivity.

Ltac tokw W := match goal with |- context [S_ (?w ++ ?c0 :: ?y) _] => rewrite (wsk _ _ _ _ (sk_lay w (c0 :: y) W (tok_chr c0 y eq_refl))) end.

(** ** Primary expressions *)
Definition PrimOK (e : expr) (s : list ascii) : Prop := forall w u t c,
  layout w -> sk u t -> fits s u -> nocall e t ->
  exists u', sk u' t /\ PG primary (w ++ s ++ u) (gen true (q_of t) e) u' c.
Lemma Prim_Post e s : PrimOK e s -> PostOK e s.
Proof.
  intros H w u t h r c W U N K Hk. destruct (H w u t c W U N K) as (u' & U' & P).
  apply (PG_step _ (fun n => '(v, b) <- primary n ;; postfixLoop n v b) _ (w ++ s ++ u)); [reflexivity|].
  apply (PG_bind primary (fun n p => let '(v, b) := p in postfixLoop n v b) _ _ _ u'); auto with pure.
  intros [v b] c'. apply Hk. auto.
Qed.
Lemma Prim_num z s : tNum z s -> PrimOK (EInt z) s.
Proof.
  intros H w u t c W U N _. exists u. split; auto.
  apply (PG_step _ (fun _ => ret (VInt z, false)) _ u); [|apply PG_ret].
  intros n. cbn [primary]. pose proof (lex_numd [] z s u lay_nil H (proj1 (joins_num _ _ _ H) N)) as L. cbn [app] in L. pose proof (operand_tok _ (operand_app _ u (tNum_first _ _ H))) as T.
  destruct H as [z' ds N' D V]. destruct ds as [|d ds]; [congruence|]. cbn [app].
  rewrite (wsk _ _ (d :: ds ++ u)) by (apply sk_lay; auto). rewrite rck. inversion D; subst.
  assert (Dg : IsDigit d = true) by (apply IsDigit_digit; auto).
  assert (F : Ascii.eqb d QUOTE = false /\ Ascii.eqb d DQUOTE = false /\ Ascii.eqb d "(" = false).
  { repeat split; match goal with |- Ascii.eqb ?a ?b = false => destruct (Ascii.eqb_spec a b) as [->|]; auto; discriminate end. }
  destruct F as (-> & -> & ->). rewrite Dg, unk. rewrite (lexk _ _ _ _ _ _ L). reflexivity.
Qed.
Lemma Prim_chr z s : tChr z s -> PrimOK (EInt z) s.
Proof.
  intros H w u t c W U N _. exists u. split; auto. destruct (lex_chr z s u H) as (s' & -> & L).
  apply (PG_step _ (fun _ => ret (VInt z, false)) _ u); [|apply PG_ret].
  intros n. cbn [primary app]. rewrite (wsk _ _ (QUOTE :: s' ++ u)) by (apply sk_lay; auto; apply tok_chr; reflexivity).
  rewrite rck. change (Ascii.eqb QUOTE QUOTE) with true. cbv iota. rewrite (lexk _ _ _ _ _ _ L). reflexivity.
Qed.
Lemma Prim_str z s : tStr z s -> PrimOK (EStr z) s.
Proof.
  intros H w u t c W U N _. exists u. split; auto. destruct (lex_str z s u H) as (s' & -> & L).
  apply (PG_step _ (fun _ => gen true (q_of t) (EStr z)) _ u); [|apply PG_last; auto with pure].
  intros n. cbn [primary app]. rewrite (wsk _ _ (DQUOTE :: s' ++ u)) by (apply sk_lay; auto; apply tok_chr; reflexivity).
  rewrite rck. change (Ascii.eqb DQUOTE QUOTE) with false. change (Ascii.eqb DQUOTE DQUOTE) with true. cbv iota. rewrite (lexk _ _ _ _ _ _ L). reflexivity.
Qed.
Lemma primary_ident n w x u c : layout w -> ident x -> nid u -> primary (S n) (S_ (w ++ $x ++ u) c) = primaryIdent x (S_ u c).
Proof.
  intros W H N. cbn [primary]. pose proof (lex_ident [] x u lay_nil H N) as L. cbn [app] in L.
  pose proof (operand_tok _ (operand_app _ u (operand_ident x H))) as T.
  destruct (ident_first x H) as (d & ds & E & LT & _). rewrite E in *. cbn [app] in *.
  rewrite (wsk _ _ (d :: ds ++ u)) by (apply sk_lay; auto). rewrite rck.
  assert (Dg : IsLetter d = true) by (apply IsLetter_letter; auto).
  assert (F : Ascii.eqb d QUOTE = false /\ Ascii.eqb d DQUOTE = false /\ Ascii.eqb d "(" = false /\ IsDigit d = false).
  { repeat split; try match goal with |- Ascii.eqb ?a ?b = false => destruct (Ascii.eqb_spec a b) as [->|]; auto; discriminate end.
    apply IsDigit_false. unfold letter in LT. unfold digit. cbn [In] in LT. lia. }
  destruct F as (-> & -> & -> & ->). rewrite Dg, unk. rewrite (lexk _ _ _ _ _ _ L). reflexivity.
Qed.
Lemma Prim_var x : ident x -> PrimOK (EVar x) ($x).
Proof.
  intros H w u t c W U N K. apply (joins_ident x u H) in N. exists t. split; [eapply sk_self; eauto|].
  apply (PG_step _ (fun _ => a <- GetAddress x ;;
    match a with
    | Some addr => ret (addr, true)
    | None =>
        lift Whitespace ;;;
        r2 <- rc ;;
        unreadOk r2 ;;;
        if isCh r2 "=" then errorf ("undefined identifier '" ++ x ++ "'")
        else
          c <- get ;;
          match findFuncByName c x with
          | Some f =>
              v <- emitR (fun r => IPtrToInt r (fun_value f)) ;;
              ret (v, false)
          | None =>
              o <- GetOrDeclareFunction x ;;
              match o with
              | Some fn =>
                  v <- emitR (fun r => IPtrToInt r fn) ;;
                  ret (v, false)
              | None => errorf ("undefined identifier '" ++ x ++ "'")
              end
          end
    end) _ t).
  { intros n. rewrite primary_ident by auto. unfold primaryIdent. rewrite (wsk _ _ _ _ U). destruct t as [|ch t].
    - rewrite rck0. reflexivity.
    - rewrite rck, unokk. cbn [isCh]. cbn in K. destruct (Ascii.eqb_spec ch "("); [contradiction|]. reflexivity. }
  cbn [gen]. unfold genVar. apply PG_pure; auto with pure. intros [a|] c'; [apply PG_ret|].
  match goal with |- PG _ _ (if ?b then ?x else ?y) _ _ => apply (PG_same _ (fun _ => if b then x else y) _ t) end.
  - intros n. rewrite (wsk _ t t) by (eapply sk_self; eauto). destruct t as [|ch t]; [reflexivity|]. rewrite rck, unokk. reflexivity.
  - apply PG_last. pure_tac.
Qed.
Lemma Prim_paren a sa w1 w2 : F2OK 15 a sa -> layout w1 -> layout w2 -> operand sa -> PrimOK (EParen a) ($"(" ++ w1 ++ sa ++ w2 ++ $")").
Proof.
  intros H W1 W2 O w u t c W U N _. exists u. split; auto.
  replace (w ++ ($"(" ++ w1 ++ sa ++ w2 ++ $")") ++ u) with (w ++ "("%char :: w1 ++ sa ++ w2 ++ ")"%char :: u)
    by (rewrite <- !app_assoc; reflexivity).
  apply (PG_step _ (fun n => v <- exprL n 15 ;; lift (ExpectChar ")" "expect ')' after expression") ;;; ret (v, false)) _
     (w1 ++ sa ++ w2 ++ ")"%char :: u)).
  { intros n. cbn [primary]. tokw W. rewrite rck. reflexivity. }
  apply (PG_geq _ _ _ (v <- genR true false a ;; ret (v, false))); [geq|].
  apply (PG_bind (fun n => exprL n 15) (fun n v => lift (ExpectChar ")" "expect ')' after expression") ;;; ret (v, false)) _ _ _ (")"%char :: u)); auto with pure.
  - apply (H 15%nat w1 (w2 ++ ")"%char :: u) (")"%char :: u)); auto using sk_lay, tok_chr, nid_lay, nid_chr, fits_nid; reflexivity.
  - intros v c'. apply (PG_same _ (fun _ => ret (v, false)) _ u); [|apply PG_ret]. intros n. apply expk.
Qed.

Ltac flat := rewrite <- ?app_assoc; cbn [list_ascii_of_string app]; rewrite <- ?app_assoc.
(** ** Postfix expressions *)
Lemma Post_idx a sa w i w1 si w2 : PostOK a sa -> F2OK 15 i si -> layout w -> layout w1 -> layout w2 -> (forall x, a <> ECallee x) ->
  PostOK (EIdx a i) (sa ++ w ++ $"[" ++ w1 ++ si ++ w2 ++ $"]").
Proof.
  intros HA HI W W1 W2 NC w0 u t h r c W0 U N _ Hk. flat.
  apply (PG_geq _ _ _ (bind (gen true (q_of ("["%char :: w1 ++ si ++ w2 ++ "]"%char :: u)) a) (fun p => let '(v, l) := p in
     v <- rval v l ;; ptr <- emitR (fun r => IIntToPtr r v) ;; w <- genR true false i ;; p <- emitR (fun r => IGepWord r ptr w) ;; h (p, true)))); [geq|].
  apply HA; auto using nid_lay, nid_chr, fits_nid.
  - apply sk_lay; auto. apply tok_chr. reflexivity.
  - destruct a; cbn; auto; [discriminate|destruct (NC _ eq_refl)].
  - intros v l c' u' U'.
    apply (PG_step _ (fun n => v <- rval v l ;; ptr <- emitR (fun r => IIntToPtr r v) ;;
        index <- exprL n 15 ;;
        lift (ExpectChar "]" "expect ']' after array index") ;;;
        p <- emitR (fun r => IGepWord r ptr index) ;;
        postfixLoop n p true) _ (w1 ++ si ++ w2 ++ "]"%char :: u)).
    { intros n. cbn [postfixLoop]. rewrite (wsk _ _ _ _ U'). rewrite rck. reflexivity. }
    apply (PG_pure (rval v l) (fun n v => _)); auto with pure. intros v1 c1.
    apply (PG_pure (emitR _) (fun n v => _)); auto with pure. intros v2 c2.
    apply (PG_bind (fun n => exprL n 15) (fun n v => _) _ _ _ ("]"%char :: u)); auto with pure.
    { apply (HI 15%nat w1 (w2 ++ "]"%char :: u) ("]"%char :: u)); auto using sk_lay, tok_chr, nid_lay, nid_chr, fits_nid; reflexivity. }
    intros v3 c3. apply (PG_exp _ _ (fun n v => _)).
    apply (PG_pure (emitR _) (fun n v => _)); auto with pure.
Qed.
Lemma Post_call f sf w args sl : PostOK f sf -> (forall x, f <> EVar x) -> AOK args sl -> layout w -> (forall x, f <> ECallee x) ->
  PostOK (ECall f args) (sf ++ w ++ $"(" ++ sl).
Proof.
  intros HF NV HA W NC w0 u t h r c W0 U N _ Hk. flat.
  apply (PG_geq _ _ _ (bind (gen true (q_of ("("%char :: sl ++ u)) f) (fun p => let '(v, l) := p in
     fn <- rval v l ;; vs <- (vs <- genArgs true args ;; ret ([] ++ vs)) ;; res <- doCall fn vs ;; h (res, false)))); [geq|].
  apply HF; auto using nid_lay, nid_chr, fits_nid.
  - apply sk_lay; auto. apply tok_chr. reflexivity.
  - destruct f; cbn; auto; [destruct (NV _ eq_refl)|destruct (NC _ eq_refl)].
  - intros v l c' u' U'.
    apply (PG_step _ (fun n => fn <- rval v l ;; args <- callArgs n [] ;; res <- doCall fn args ;; postfixLoop n res false) _ (sl ++ u)).
    { intros n. cbn [postfixLoop]. rewrite (wsk _ _ _ _ U'). rewrite rck. reflexivity. }
    apply (PG_pure (rval v l) (fun n v => _)); auto with pure. intros v1 c1.
    apply (PG_bind (fun n => callArgs n []) (fun n v => _) _ _ _ u); [pure_tac|apply HA|]. intros v2 c2.
    apply (PG_pure (doCall _ _) (fun n v => _)); auto with pure.
Qed.
Lemma Post_callx x w args sl : ident x -> AOK args sl -> layout w ->
  PostOK (ECall (ECallee x) args) ($x ++ w ++ $"(" ++ sl).
Proof.
  intros HX HA W w0 u t h r c W0 U N _ Hk. flat.
  apply (PG_geq _ _ _ (bind (gen true false (ECallee x)) (fun p => let '(v, l) := p in
     fn <- rval v l ;; vs <- (vs <- genArgs true args ;; ret ([] ++ vs)) ;; res <- doCall fn vs ;; h (res, false)))); [geq|].
  apply (PG_step _ (fun n => '(v, b) <- primary n ;; postfixLoop n v b) _ (w0 ++ $x ++ w ++ "("%char :: sl ++ u)); [reflexivity|].
  apply (PG_bind primary (fun n p => let '(v, b) := p in postfixLoop n v b) _ _ _ ("("%char :: sl ++ u)); auto with pure.
  - apply (PG_step _ (fun _ => genCallee x) _ ("("%char :: sl ++ u)); [|apply PG_last; auto with pure].
    intros n. rewrite primary_ident by auto using nid_lay, nid_chr, fits_nid. unfold primaryIdent. tokw W. rewrite rck, unokk. reflexivity.
  - intros [v l] c'.
    apply (PG_step _ (fun n => fn <- rval v l ;; args <- callArgs n [] ;; res <- doCall fn args ;; postfixLoop n res false) _ (sl ++ u)).
    { intros n. cbn [postfixLoop]. rewrite (wsk _ _ ("("%char :: sl ++ u)) by (apply sk_refl, tok_chr; reflexivity). rewrite rck. reflexivity. }
    apply (PG_pure (rval v l) (fun n v => _)); auto with pure. intros v1 c1.
    apply (PG_bind (fun n => callArgs n []) (fun n v => _) _ _ _ u); [pure_tac|apply HA|]. intros v2 c2.
    apply (PG_pure (doCall _ _) (fun n v => _)); auto with pure.
Qed.
Lemma incdec_text op x : incdec op = Some x -> exists ch, $x = [ch; ch] /\ (ch = "+"%char \/ ch = "-"%char) /\
  op = if Ascii.eqb ch "+" then OAdd else OSub.
Proof. destruct op; try discriminate; intros E; injection E as <-; eexists; (split; [reflexivity|auto]). Qed.
Lemma Post_post op x a sa w : PostOK a sa -> incdec op = Some x -> layout w -> (forall x, a <> ECallee x) -> PostOK (EPost op a) (sa ++ w ++ $x).
Proof.
  intros HA E W NC w0 u t h r c W0 U N _ Hk. destruct (incdec_text op x E) as (ch & -> & HC & ->). flat.
  apply (PG_geq _ _ _ (bind (gen true (q_of (ch :: ch :: u)) a) (fun p => let '(v, l) := p in
     if l : bool then cur <- incDec (if Ascii.eqb ch "+" then OAdd else OSub) v ;; h (cur, false)
      else errorf (if Ascii.eqb ch "+" then "expected lvalue for postfix '++'" else "expected lvalue for postfix '--'")))).
  { replace (q_of (ch :: ch :: u)) with false by (destruct HC as [-> | ->]; reflexivity). destruct HC as [-> | ->]; geq. }
  assert (T : chr_tok ch = true) by (destruct HC as [-> | ->]; reflexivity).
  apply HA; auto using nid_lay.
  - apply sk_lay; auto using tok_chr.
  - apply fits_nid, nid_lay; auto. apply nid_chr. destruct HC as [-> | ->]; reflexivity.
  - destruct a; cbn; auto; [|destruct (NC _ eq_refl)]. destruct HC as [-> | ->]; discriminate.
  - intros v l c' u' U'.
    apply (PG_step _ (fun n => if l then
            cur <- incDec (if Ascii.eqb ch "+" then OAdd else OSub) v ;;
            postfixLoop n cur false
          else errorf (if Ascii.eqb ch "+" then "expected lvalue for postfix '++'" else "expected lvalue for postfix '--'")) _ u).
    { intros n. cbn [postfixLoop]. rewrite (wsk _ _ _ _ U'). rewrite rck. destruct HC as [-> | ->]; reflexivity. }
    destruct l; [|apply PG_err]. apply (PG_pure (incDec _ _) (fun n v => _)); auto with pure.
Qed.
(** ** Arguments *)
Lemma first_not_close w s u : layout w -> operand s -> exists d z, w ++ s ++ u = d :: z /\ Ascii.eqb d ")" = false.
Proof.
  intros W (c & r & -> & O & _). destruct W as [|d w' Wd W'|t w' N W']; cbn; eexists; eexists; (split; [reflexivity|]); try reflexivity.
  - destruct (Ascii.eqb_spec c ")"); auto. apply opstart_chars in O. tauto.
  - destruct (Ascii.eqb_spec d ")") as [->|]; auto. apply IsSpace_white in Wd. discriminate.
Qed.
Lemma A_nil : AOK ENil ($")").
Proof.
  intros acc u c. apply (PG_step _ (fun _ => ret acc) _ u); [reflexivity|]. apply (PG_geq _ _ _ (ret acc)); [|apply PG_ret].
  intros s. cbn [genArgs]. rewrite retk, app_nil_r. reflexivity.
Qed.
Lemma A_one e w1 s w2 : F2OK 15 e s -> operand s -> layout w1 -> layout w2 -> AOK (ECons e ENil) (w1 ++ s ++ w2 ++ $")").
Proof.
  intros H O W1 W2 acc u c. flat.
  apply (PG_geq _ _ _ (v <- genR true false e ;; vs <- genArgs true ENil ;; ret (acc ++ v :: vs))); [geq|].
  apply (PG_geq _ _ _ (v <- genR true false e ;; ret (acc ++ [v]))); [reflexivity|].
  apply (PG_step _ (fun n => a <- exprL n 15 ;;
        lift Whitespace ;;;
        ch <- readChar ;;
        if Ascii.eqb ch ")" then ret (acc ++ [a])
        else if Ascii.eqb ch "," then callArgs n (acc ++ [a])
        else errorf ("unexpected character '" ++ fmt_c ch ++ "', expect ')'")) _ (w1 ++ s ++ w2 ++ ")"%char :: u)).
  { intros n. destruct (first_not_close w1 s (w2 ++ ")"%char :: u) W1 O) as (d & z & E & F). rewrite E. cbn [callArgs]. rewrite rdk, F, unk. reflexivity. }
  apply (PG_bind (fun n => exprL n 15) (fun n v => _) _ _ _ (")"%char :: u)); auto with pure.
  - apply (H 15%nat w1 (w2 ++ ")"%char :: u) (")"%char :: u)); auto using sk_lay, tok_chr, nid_lay, nid_chr, fits_nid; reflexivity.
  - intros v c'. apply (PG_same _ (fun _ => ret (acc ++ [v])) _ u); [|apply PG_ret].
    intros n. rewrite (wsk _ _ (")"%char :: u)) by (apply sk_refl, tok_chr; reflexivity). rewrite rdk. reflexivity.
Qed.
Lemma A_cons e w1 s w2 l sl : F2OK 15 e s -> operand s -> layout w1 -> layout w2 -> AOK l sl -> AOK (ECons e l) (w1 ++ s ++ w2 ++ $"," ++ sl).
Proof.
  intros H O W1 W2 HL acc u c. flat.
  apply (PG_geq _ _ _ (v <- genR true false e ;; vs <- genArgs true l ;; ret ((acc ++ [v]) ++ vs))).
  { geq. rewrite <- app_assoc. reflexivity. }
  apply (PG_step _ (fun n => a <- exprL n 15 ;;
        lift Whitespace ;;;
        ch <- readChar ;;
        if Ascii.eqb ch ")" then ret (acc ++ [a])
        else if Ascii.eqb ch "," then callArgs n (acc ++ [a])
        else errorf ("unexpected character '" ++ fmt_c ch ++ "', expect ')'")) _ (w1 ++ s ++ w2 ++ ","%char :: sl ++ u)).
  { intros n. destruct (first_not_close w1 s (w2 ++ ","%char :: sl ++ u) W1 O) as (d & z & E & F). rewrite E. cbn [callArgs]. rewrite rdk, F, unk. reflexivity. }
  apply (PG_bind (fun n => exprL n 15) (fun n v => _) _ _ _ (","%char :: sl ++ u)); auto with pure.
  - apply (H 15%nat w1 (w2 ++ ","%char :: sl ++ u) (","%char :: sl ++ u)); auto using sk_lay, tok_chr, nid_lay, nid_chr, fits_nid; reflexivity.
  - intros v c'. apply (PG_same _ (fun n => callArgs n (acc ++ [v])) _ (sl ++ u)); [|apply HL].
    intros n. rewrite (wsk _ _ (","%char :: sl ++ u)) by (apply sk_refl, tok_chr; reflexivity). rewrite rdk. reflexivity.
Qed.
(** The rest of a text after an operator and layout. *)
Lemma fits_pop pre x w sa u : x <> [] -> IsIdent (last x "a"%char) = false -> layout w -> fits (pre ++ x ++ w ++ sa) u -> fits sa u.
Proof.
  intros NX LX W H. rewrite !app_assoc in H. eapply fits_sub; [|exact H]. apply other_app; [|apply other_lay, W].
  destruct (@exists_last _ x NX) as (p & b & ->). rewrite last_last in LX. eapply other_last; [|apply app_assoc]. apply IsIdent_false, LX.
Qed.
Lemma fits_op x w sa u : x <> [] -> IsIdent (last x "a"%char) = false -> layout w -> fits (x ++ w ++ sa) u -> fits sa u.
Proof. apply (fits_pop []). Qed.
(** ** Unary expressions *)
Definition geqv {A} (g g' : C A) : Prop := forall s, g s = g' s.
Lemma PG_geqv {A} (p : nat -> C A) i g g' r c : geqv g g' -> PG p i g' r c -> PG p i g r c.
Proof. apply PG_geq. Qed.
Lemma un_tail q e (k : value * bool -> C (value * bool)) (g : C (value * bool)) i u t c w sa :
  UnOK e sa -> layout w -> sk u t -> fits sa u -> stops 0 t -> q = q_of t -> (forall p, pure (k p)) ->
  geqv g (bind (gen true q e) k) ->
  (forall n, unary (S n) (S_ i c) = bind (unary n) k (S_ (w ++ sa ++ u) c)) ->
  PG unary i g t c.
Proof.
  intros H W U N K -> Pk E X. apply (PG_geqv _ _ _ (bind (gen true (q_of t) e) k)); auto.
  apply (PG_step _ (fun n => bind (unary n) k) _ (w ++ sa ++ u)); auto.
  apply (PG_bind unary (fun _ => k) _ _ _ t); auto with pure.
  intros p c'. apply PG_last. auto.
Qed.
Ltac geqv := let s := fresh in intros s; try ugen; unfold genR, bind, ret, errorf, fail;
  repeat (match goal with |- context [match ?m with _ => _ end] => lazymatch m with context [match _ with _ => _ end] => fail | _ => destruct m end end); eauto.
Lemma Un_pre op x a sa w : UnOK a sa -> incdec op = Some x -> layout w -> UnOK (EPre op a) ($x ++ w ++ sa).
Proof.
  intros H E W w0 u t c W0 U N K. destruct (incdec_text op x E) as (ch & E2 & HC & ->).
  apply fits_op in N; [|rewrite E2; discriminate|rewrite E2; destruct HC as [-> | ->]; reflexivity|auto]. rewrite E2. flat.
  apply (un_tail (q_of t) a (fun p => let '(v, l) := p in
      if l : bool then incDec (if Ascii.eqb ch "+" then OAdd else OSub) v ;;; ret (v, true)
      else errorf (if Ascii.eqb ch "+" then "expected lvalue after '++'" else "expected lvalue after '--'")) _ _ u t c w sa); auto.
  - intros []. pure_tac.
  - geqv.
  - intros n. cbn [unary]. destruct HC as [-> | ->]; tokw W0; rewrite !rck; reflexivity.
Qed.
Lemma Un_not a sa w : UnOK a sa -> layout w -> UnOK (ENot a) ($"!" ++ w ++ sa).
Proof.
  intros H W w0 u t c W0 U N K. apply fits_op in N; [|discriminate|reflexivity|auto]. flat.
  apply (un_tail (q_of t) a (fun p => let '(v, l) := p in v <- rval v l ;; w <- cmpz PEQ v (VInt 0) ;; ret (w, false)) _ _ u t c w sa); auto.
  - intros []. pure_tac.
  - geqv.
  - intros n. cbn [unary]. tokw W0. rewrite !rck. reflexivity.
Qed.
Lemma Un_neg a sa w : UnOK a sa -> layout w -> x_apart "-" (w ++ sa) -> operand sa -> UnOK (ENeg a) ($"-" ++ w ++ sa).
Proof.
  intros H W AP O w0 u t c W0 U N K. apply fits_op in N; [|discriminate|reflexivity|auto]. flat.
  apply (un_tail (q_of t) a (fun p => let '(v, l) := p in v <- rval v l ;; w <- emitR (fun r => IBin r OSub (VInt 0) v) ;; ret (w, false)) _ _ u t c w sa); auto.
  - intros []. pure_tac.
  - geqv.
  - intros n. cbn [unary]. tokw W0. rewrite rck. cbn [Ascii.eqb Bool.eqb]. rewrite app_assoc.
    pose proof (operand_like_ne w sa (operand_lay w sa W O)) as Z. destruct (w ++ sa) as [|d z]; [contradiction|]. cbn [app]. rewrite rck. cbn [isCh].
    destruct (Ascii.eqb_spec d "-") as [->|]; [exfalso; apply (AP _ _ eq_refl); cbn; auto|]. rewrite unokk. reflexivity.
Qed.
Lemma Un_deref a sa w : UnOK a sa -> layout w -> UnOK (EDeref a) ($"*" ++ w ++ sa).
Proof.
  intros H W w0 u t c W0 U N K. apply fits_op in N; [|discriminate|reflexivity|auto]. flat.
  apply (un_tail (q_of t) a (fun p => let '(v, l) := p in v <- rval v l ;; p <- emitR (fun r => IIntToPtr r v) ;; ret (p, true)) _ _ u t c w sa); auto.
  - intros []. pure_tac.
  - geqv.
  - intros n. cbn [unary]. tokw W0. rewrite !rck. reflexivity.
Qed.
Lemma Un_addr a sa w : UnOK a sa -> layout w -> UnOK (EAddr a) ($"&" ++ w ++ sa).
Proof.
  intros H W w0 u t c W0 U N K. apply fits_op in N; [|discriminate|reflexivity|auto]. flat.
  apply (un_tail (q_of t) a (fun p => let '(v, l) := p in if l : bool then
          w <- emitR (fun r => IPtrToInt r v) ;;
          ret (w, false)
        else errorf "expected lvalue after '&'") _ _ u t c w sa); auto.
  - intros []. pure_tac.
  - geqv.
  - intros n. cbn [unary]. tokw W0. rewrite !rck. reflexivity.
Qed.
(** ** Binary operators *)
Lemma bin_op_facts op x l r z : x_op op = Some (x, l, r) -> x_apart x z -> operand_like z ->
  (r <= Nat.pred l)%nat /\ stops (Nat.pred l) ($x ++ z) /\
  token_start ($x ++ z) /\ nid ($x ++ z) /\ q_of ($x ++ z) = is_eqeq op.
Proof.
  intros B AP Z. destruct z as [|d z]; [contradiction|]. destruct Z as (Z0 & Z1 & _).
  assert (ND : forall e, d <> e -> Ascii.eqb d e = false) by (intros e N; destruct (Ascii.eqb_spec d e); congruence).
  assert (AD : forall e, In (x, e) x_glue -> d <> e) by (intros e He ->; exact (AP _ _ eq_refl He)).
  destruct op as [[]|[]]; cbn [x_op bin_op] in B; injection B as <- <- <-;
  (split; [cbn; lia|]); cbn [list_ascii_of_string app Nat.pred];
  (split; [|split; [|split; [apply nid_chr; reflexivity|reflexivity]]]);
  try (apply tok_chr; reflexivity); try reflexivity; cbn [stops]; unfold cont; cbn [Ascii.eqb Bool.eqb andb orb Nat.leb]; try reflexivity.
  - rewrite (ND _ (AD "+"%char ltac:(cbn; auto))). reflexivity.
  - rewrite (ND _ (AD "-"%char ltac:(cbn; auto))). reflexivity.
  - split; [apply white_slash|intros _ r' E; injection E as -> _; apply (AD "*"%char); cbn; auto].
Qed.
Lemma F1_bin op x l r a sa w1 w2 b sb : x_op op = Some (x, l, r) -> F1OK l a sa -> F2OK r b sb -> layout w1 -> layout w2 ->
  x_apart x (w2 ++ sb) -> operand sb -> F1OK l (EBin op a b) (sa ++ w1 ++ $x ++ w2 ++ sb).
Proof.
  intros B HA HB W1 W2 AP O lv w u t h rr c L W U N K Hk.
  assert (N2 : fits sb u).
  { rewrite app_assoc in N. apply fits_pop in N; auto; destruct op as [[]|[]]; cbn in B; injection B as <- <- <-; (discriminate || reflexivity). }
  flat.
  assert (Z : operand_like (w2 ++ sb ++ u)).
  { apply operand_lay; auto using operand_app. }
  assert (AP' : x_apart x (w2 ++ sb ++ u)).
  { intros e y E. rewrite app_assoc in E. pose proof (operand_like_ne w2 sb (operand_lay w2 sb W2 O)) as Z'.
    destruct (w2 ++ sb) as [|d z]; [contradiction|]. cbn in E. injection E as -> _. exact (AP _ _ eq_refl). }
  destruct (bin_op_facts op x l r _ B AP' Z) as (R2 & S1 & T1 & N1 & Q1).
  apply (PG_geq _ _ _ (bind (gen true (q_of ($x ++ w2 ++ sb ++ u)) a) (fun p => let '(v, l) := p in v <- rval v l ;;
      w <- genR true (q_of t) b ;; x <- applyCop op v w ;; h (x, false)))).
  { rewrite Q1. geq. }
  apply HA; auto using sk_lay, nid_lay, fits_nid. intros v b' c' u' U'.
  apply (PG_step _ (fun n => lhs <- rval v b' ;; rhs <- exprL n r ;; y <- applyCop op lhs rhs ;; exprLoop n lv y false) _ (w2 ++ sb ++ u)).
  { intros n. destruct U' as (w' & W' & -> & _). apply (loop_bin op x l r); auto. }
  apply (PG_pure (rval v b') (fun n v => _)); auto with pure. intros v1 c1.
  apply (PG_bind (fun n => exprL n r) (fun n v => _) _ _ _ t); auto with pure.
  { apply HB; auto. eapply stops_mono; [|eauto]. lia. }
  intros v2 c2. apply (PG_pure (applyCop _ _ _) (fun n v => _)); auto with pure. intros v3 c3. apply Hk. eapply sk_self; eauto.
Qed.
(** ** Conditional and assignment *)
Lemma F2_cond a sa w1 w2 b sb w3 w4 d sd : F1OK 12 a sa -> F2OK 12 b sb -> F2OK 13 d sd -> operand sb -> operand sd ->
  layout w1 -> layout w2 -> layout w3 -> layout w4 ->
  F2OK 13 (ECond a b d) (sa ++ w1 ++ $"?" ++ w2 ++ sb ++ w3 ++ $":" ++ w4 ++ sd).
Proof.
  intros HA HB HD OB OD W1 W2 W3 W4 lv w u t c L W U N K.
  assert (N2 : fits sd u).
  { replace (sa ++ w1 ++ $"?" ++ w2 ++ sb ++ w3 ++ $":" ++ w4 ++ sd) with ((sa ++ w1 ++ $"?" ++ w2 ++ sb ++ w3) ++ $":" ++ w4 ++ sd) in N
      by (rewrite <- !app_assoc; reflexivity).
    apply fits_pop in N; auto; (discriminate || reflexivity). }
  flat.
  set (td := w4 ++ sd ++ u). set (tb := w2 ++ sb ++ w3 ++ ":"%char :: td).
  apply (PG_geq _ _ _ (bind (gen true (q_of ("?"%char :: tb)) a) (fun p => let '(v, l) := p in
     v <- rval v l ;; 
      id <- nextLabelID ;;
      bThen <- NewBlock ("cond.then." ++ dec id) ;;
      bElse <- NewBlock ("cond.else." ++ dec id) ;;
      bEnd <- NewBlock ("cond.end." ++ dec id) ;;
      cmp <- emitR (fun r => ICmp r PNE v (VInt 0)) ;;
      setTerm (TCondBr cmp bThen bElse) ;;;
      SetInsertPoint bThen ;;;
      vThen <- genR true false b ;;
      eThen <- GetInsertBlock ;;
      setTerm (TBr bEnd) ;;;
      SetInsertPoint bElse ;;;
      vElse <- genR true (q_of t) d ;;
      eElse <- GetInsertBlock ;;
      setTerm (TBr bEnd) ;;;
      SetInsertPoint bEnd ;;;
      emitR (fun r => IPhi r [(vThen, eThen); (vElse, eElse)])))); [unfold genR; geq|].
  apply HA; auto using nid_lay, nid_chr, fits_nid.
  - lia.
  - apply sk_lay; auto. apply tok_chr. reflexivity.
  - reflexivity.
  - intros v l c' u' (w' & W' & -> & _).
    apply (PG_step _ (condP v l) _ tb); [intros n; apply (loop_cond lv v l w' tb n c' W' L)|]. unfold condP.
    apply (PG_pure (rval v l) (fun n v => _)); auto with pure. intros v1 c1.
    apply (PG_pure nextLabelID (fun n v => _)); auto with pure. intros v2 c2.
    do 3 (apply (PG_pure (NewBlock _) (fun n v => _)); auto with pure; intros ? ?).
    apply (PG_pure (emitR _) (fun n v => _)); auto with pure. intros ? ?.
    apply (PG_pure (setTerm _) (fun n v => _)); auto with pure. intros ? ?.
    apply (PG_pure (SetInsertPoint _) (fun n v => _)); auto with pure. intros ? ?.
    apply (PG_bind (fun n => exprL n 12) (fun n v => _) _ _ _ (":"%char :: td)); auto with pure.
    { apply (HB 12%nat w2 (w3 ++ ":"%char :: td) (":"%char :: td)); auto using sk_lay, tok_chr, nid_lay, nid_chr, fits_nid; reflexivity. }
    intros ? ?.
    apply (PG_pure GetInsertBlock (fun n v => _)); auto with pure. intros ? ?.
    apply (PG_pure (setTerm _) (fun n v => _)); auto with pure. intros ? ?.
    apply (PG_ws (fun n v => _) _ (":"%char :: td)); [apply sk_refl, tok_chr; reflexivity|].
    apply (PG_exp _ _ (fun n v => _)).
    apply (PG_pure (SetInsertPoint _) (fun n v => _)); auto with pure. intros ? ?.
    apply (PG_bind (fun n => exprL n 13) (fun n v => _) _ _ _ t); auto with pure.
    { apply HD; auto. eapply stops_mono; [|eauto]. lia. }
    intros ? ?. apply PG_last. pure_tac.
Qed.
Lemma asg_facts op z : x_apart (asg_op op) z -> operand_like z ->
  stops 12 ($(asg_op op) ++ z) /\ token_start ($(asg_op op) ++ z) /\ nid ($(asg_op op) ++ z) /\ q_of ($(asg_op op) ++ z) = true.
Proof.
  intros AP Z. destruct z as [|d z]; [contradiction|]. destruct Z as (Z0 & Z1 & _).
  assert (ND : forall e, d <> e -> Ascii.eqb d e = false) by (intros e N; destruct (Ascii.eqb_spec d e); congruence).
  destruct op as [[[]|[]]|]; cbn [asg_op list_ascii_of_string app];
  (split; [|split; [apply tok_chr; reflexivity|split; [apply nid_chr; reflexivity|reflexivity]]]); try reflexivity.
  cbn [stops]; unfold cont; cbn [Ascii.eqb Bool.eqb andb orb Nat.leb]. rewrite (ND _ Z1). reflexivity.
Qed.
Lemma F2_asg op a sa w1 w2 b sb : F1OK 12 a sa -> F2OK 14 b sb -> layout w1 -> layout w2 ->
  x_apart (asg_op op) (w2 ++ sb) -> operand sb -> F2OK 14 (EAsg op a b) (sa ++ w1 ++ $(asg_op op) ++ w2 ++ sb).
Proof.
  intros HA HB W1 W2 AP O lv w u t c L W U N K.
  assert (N2 : fits sb u).
  { rewrite app_assoc in N. apply fits_pop in N; auto; destruct op as [[[]|[]]|]; (discriminate || reflexivity). }
  flat.
  assert (Z : operand_like (w2 ++ sb ++ u)).
  { apply operand_lay; auto using operand_app. }
  assert (AP' : x_apart (asg_op op) (w2 ++ sb ++ u)).
  { intros e y E. rewrite app_assoc in E. pose proof (operand_like_ne w2 sb (operand_lay w2 sb W2 O)) as Z'.
    destruct (w2 ++ sb) as [|d z]; [contradiction|]. cbn in E. injection E as -> _. exact (AP _ _ eq_refl). }
  destruct (asg_facts op _ AP' Z) as (S1 & T1 & N1 & Q1).
  apply (PG_geqv _ _ _ (bind (gen true (q_of ($(asg_op op) ++ w2 ++ sb ++ u)) a) (fun p => let '(v, l) := p in
   if negb l then errorf "left operand of assignment must be an lvalue" else
   rhs <- genR true (q_of t) b ;;
   match op with
   | Some o => cur <- emitR (fun r => ILoad r v) ;; x <- applyCop o cur rhs ;; emit (IStore x v) ;;; ret x
   | None => emit (IStore rhs v) ;;; ret rhs
   end))).
  { rewrite Q1. clear. intros s. unfold genR. ugen. unfold bind, ret, errorf, fail.
    destruct (gen true true a s) as [[p []] s1| |]; cbn [negb]; eauto.
    destruct (gen true (q_of t) b s1) as [[v l] s2| |]; eauto.
    destruct (rval v l s2) as [v' s3| |]; eauto. destruct op as [o|].
    - destruct (emitR _ s3) as [v4 s4| |]; [|reflexivity|reflexivity]. destruct (applyCop o v4 v' s4) as [v5 s5| |]; [|reflexivity|reflexivity].
      destruct (emit _ s5) as [v6 s6| |]; reflexivity.
    - destruct (emit _ s3) as [v6 s6| |]; reflexivity. }
  apply HA; auto using sk_lay, nid_lay, fits_nid.
  - lia.
  - intros v l c' u' (w' & W' & -> & _).
    apply (PG_step _ (asgP op v l) _ (w2 ++ sb ++ u)); [intros n; apply (loop_asg op lv v l w' _ n c' W' L AP' Z)|]. unfold asgP.
    destruct l; cbn [negb]; [|apply PG_err].
    apply (PG_bind (fun n => exprL n 14) (fun n v => _) _ _ _ t); auto with pure.
    { apply HB; auto. eapply stops_mono; [|eauto]. lia. }
    intros v1 c1. apply PG_last. pure_tac.
Qed.

(** ** All expression texts *)
Lemma xE_nocallee l e s : xE l e s -> forall x, e <> ECallee x.
Proof. induction 1; auto; discriminate. Qed.
Lemma xE_first1 l e s : xE l e s -> (l <= 1)%nat -> first1 s.
Proof.
  induction 1; intros L; try lia; auto using first1_app.
  - destruct H as [z' ds N D _]. destruct ds as [|d ds]; [congruence|]. inversion D; subst. exists d, ds. repeat split; auto using digit_opstart.
    apply IsDigit_digit in H1. intros I. cbn in I. destruct I as [<-|[<-|[<-|[<-|[<-|[]]]]]]; discriminate.
  - destruct H. eexists _, _. repeat split. intros I. cbn in I. destruct I as [I|[I|[I|[I|[I|[]]]]]]; discriminate.
  - destruct H. eexists _, _. repeat split. intros I. cbn in I. destruct I as [I|[I|[I|[I|[I|[]]]]]]; discriminate.
  - destruct (ident_first x H) as (c & r & E & LT & O). rewrite E. exists c, r. repeat split; auto.
    apply IsLetter_letter in LT. intros I. cbn in I. destruct I as [<-|[<-|[<-|[<-|[<-|[]]]]]]; discriminate.
  - eexists _, _. split; [reflexivity|]. split; [reflexivity|]. intros I. cbn in I. destruct I as [I|[I|[I|[I|[I|[]]]]]]; discriminate.
  - apply first1_app. destruct (ident_first x H) as (c & r & E & LT & O). rewrite E. exists c, r. repeat split; auto.
    apply IsLetter_letter in LT. intros I. cbn in I. destruct I as [<-|[<-|[<-|[<-|[<-|[]]]]]]; discriminate.
  - apply IHxE. lia.
Qed.
Definition EOK (l : nat) (e : expr) (s : list ascii) : Prop :=
  ((l <= 1)%nat -> PostOK e s) /\ ((l <= 2)%nat -> UnOK e s) /\ ((l <= 12)%nat -> F1OK l e s) /\ F2OK l e s.
Lemma EOK_post l e s : PostOK e s -> first1 s -> (forall x, e <> ECallee x) -> EOK l e s.
Proof.
  intros H F N. assert (U : UnOK e s) by (apply Post_Un; auto). split; [auto|]. split; [auto|].
  split; [intros _; apply Un_F1, U|apply F1_F2, Un_F1, U].
Qed.
Lemma EOK_un l e s : (2 <= l)%nat -> UnOK e s -> EOK l e s.
Proof.
  intros L U. split; [lia|]. split; [auto|]. split; [intros _; apply Un_F1, U|apply F1_F2, Un_F1, U].
Qed.
Lemma bin_level op x l r : x_op op = Some (x, l, r) -> (3 <= l <= 12)%nat.
Proof. destruct op as [[]|[]]; cbn; intros E; injection E as <- <- <-; lia. Qed.
Theorem texts_ok : (forall l e s, xE l e s -> EOK l e s) /\ (forall l s, xA l s -> AOK l s).
Proof.
  assert (X : forall l e s, xE l e s -> operand s) by apply xE_first.
  apply xE_xA_ind.
  - intros z s H. apply EOK_post; [apply Prim_Post, Prim_num; auto|eapply xE_first1; [constructor; eauto|lia]|discriminate].
  - intros z s H. apply EOK_post; [apply Prim_Post, Prim_chr; auto|eapply xE_first1; [apply xE_chr; eauto|lia]|discriminate].
  - intros z s H. apply EOK_post; [apply Prim_Post, Prim_str; auto|eapply xE_first1; [apply xE_str; eauto|lia]|discriminate].
  - intros x H. apply EOK_post; [apply Prim_Post, Prim_var; auto|eapply xE_first1; [apply xE_var; eauto|lia]|discriminate].
  - intros e w1 s w2 T (_ & _ & _ & H) W1 W2. apply EOK_post; [apply Prim_Post, Prim_paren; eauto|eapply xE_first1; [apply xE_paren; eauto|lia]|discriminate].
  - intros a sa w i w1 si w2 TA (HA & _) TI (_ & _ & _ & HI) W W1 W2.
    apply EOK_post; [apply Post_idx; eauto using xE_nocallee|eapply xE_first1; [apply xE_idx; eauto|lia]|discriminate].
  - intros x w args sl HX TA HA W. apply EOK_post; [apply Post_callx; eauto|eapply xE_first1; [apply xE_callx; eauto|lia]|discriminate].
  - intros f sf w args sl TF (HF & _) NV TA HA W. apply EOK_post; [apply Post_call; eauto using xE_nocallee|eapply xE_first1; [apply xE_call; eauto|lia]|discriminate].
  - intros op x a sa w TA (HA & _) E W. apply EOK_post; [eapply Post_post; eauto using xE_nocallee|eapply xE_first1; [eapply xE_post; eauto|lia]|discriminate].
  - intros op x a sa w TA (_ & HA & _) E W. apply EOK_un; auto. eapply Un_pre; eauto.
  - intros a sa w TA (_ & HA & _) W. apply EOK_un; auto. eapply Un_not; eauto.
  - intros a sa w TA (_ & HA & _) W AP. apply EOK_un; auto. eapply Un_neg; eauto.
  - intros a sa w TA (_ & HA & _) W. apply EOK_un; auto. eapply Un_deref; eauto.
  - intros a sa w TA (_ & HA & _) W. apply EOK_un; auto. eapply Un_addr; eauto.
  - intros op x l r a sa w1 w2 b sb B TA (_ & _ & HA & _) TB (_ & _ & _ & HB) W1 W2 AP. pose proof (bin_level _ _ _ _ B).
    assert (F : F1OK l (EBin op a b) (sa ++ w1 ++ $x ++ w2 ++ sb)) by (eapply F1_bin; eauto; apply HA; lia).
    split; [lia|]. split; [lia|]. split; [auto|]. apply F1_F2, F.
  - intros a sa w1 w2 b sb w3 w4 d sd TA (_ & _ & HA & _) TB (_ & _ & _ & HB) TD (_ & _ & _ & HD) W1 W2 W3 W4.
    split; [lia|]. split; [lia|]. split; [lia|]. apply F2_cond; eauto.
  - intros op a sa w1 w2 b sb TA (_ & _ & HA & _) TB (_ & _ & _ & HB) W1 W2 AP.
    split; [lia|]. split; [lia|]. split; [lia|]. apply F2_asg; eauto.
  - intros l l' e s T (H1 & H2 & H3 & H4) L. split; [intros; apply H1; lia|]. split; [intros; apply H2; lia|]. split.
    + intros L2 lv w u t h r c NL W U N K Hk. apply H3; auto; try lia. eapply stops_mono; [|eauto]. lia.
    + intros lv w u t c NL W U N K. apply H4; auto; try lia.
  - apply A_nil.
  - intros e w1 s w2 T (_ & _ & _ & H) W1 W2. apply A_one; eauto.
  - intros e w1 s w2 l sl T (_ & _ & _ & H) W1 W2 TL HL. apply A_cons; eauto.
Qed.
Theorem text_expression e s : xE 15 e s -> forall w u t c, layout w -> sk u t -> fits s u -> stops 15 t ->
  PG parseExpression (w ++ s ++ u) (genR true (q_of t) e) t c.
Proof. intros H w u t c W U N K. destruct texts_ok as [X _]. destruct (X _ _ _ H) as (_ & _ & _ & F). apply F; auto. Qed.
