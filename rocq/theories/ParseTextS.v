(** * ParseTextS: ParseText for statements, definitions and files *)
From Coq Require Import List Ascii String ZArith NArith Lia Bool.
From Verif Require Import Base Lexer SpecLex LexerFacts IR Builder Expr Stmt Decl Wp Syntax Pure ParseGen SpecText SpecAccept Joins ParseText.
Import ListNotations.
Open Scope Z_scope.
Open Scope m_scope.

Lemma twp_assoc fl {A B D} (m : C A) (f : A -> C B) (g : B -> C D) P t c :
  twp fl (bind m (fun a => bind (f a) g)) P t c -> twp fl (bind (bind m f) g) P t c.
Proof. intros H S. specialize (H S). unfold wp, bind in *. destruct (m _); auto. Qed.

Lemma twp_get fl {B} (f : cstate -> C B) P t c : twp fl (f c) P t c -> twp fl (bind get f) P t c.
Proof. intros H S. apply wp_bind, wp_get. apply H, S. Qed.
Lemma twp_expectT fl x msg (P : unit -> _ -> _ -> Prop) t c :
  (forall t', t = x :: t' -> P tt t' c) -> twp fl (lift (ExpectChar x msg)) P t c.
Proof.
  intros H S. assert (G : twp fl (bind (lift (ExpectChar x msg)) ret) P t c).
  { apply twp_expect. intros t' E. apply twp_ret. auto. }
  specialize (G S). unfold wp, bind in *. destruct (lift _ _); auto.
Qed.

Ltac ts1 :=
  match goal with
  | |- twp _ (errorf _) _ _ _ => apply twp_err
  | |- twp _ (fail _) _ _ _ => apply twp_fail
  | |- twp _ (bind (errorf _) _) _ _ _ => apply twp_bind, twp_err
  | |- twp _ (bind (ret _) _) _ _ _ => apply twp_bind, twp_ret
  | |- twp _ (bind (bind _ _) _) _ _ _ => apply twp_assoc
  | |- twp _ (bind (lift Whitespace) _) _ _ _ => apply twp_ws; intros ?w ?t ?E ?L ?T
  | |- twp _ (bind readChar _) _ _ _ => apply twp_read; intros ?ch ?t ?E ?HC
  | |- twp _ (bind (lift (ExpectChar _ _)) _) _ _ _ => apply twp_expect; intros ?t ?E
  | |- twp _ (bind (identOr _) _) _ _ _ => apply twp_identOr; intros ?w ?x ?t ?E ?L ?N ?NS
  | |- twp _ (bind (unread ?ch) _) _ ?t _ =>
      match goal with H : _ = ch :: t |- _ => eapply twp_unread; [exact H|assumption|] end
  | |- twp _ (bind _ _) _ _ _ => apply twp_gen; [solve [auto with pure nocore]|intros ?a ?c ?Y]
  end.
Ltac rapp := rewrite <- ?app_assoc; cbn [app]; rewrite <- ?app_assoc.

Lemma ts_app s t : token_start (s ++ t) -> token_start s.
Proof.
  destruct s as [|c r]; cbn; [auto|]. intros [H1 H2]. split; [auto|]. intros E r' ->. eapply H2; [auto|reflexivity].
Qed.

Section T.
Variable fl : bool.
Notation twp := (twp fl).

Lemma parseExpression_text n t c : twp (parseExpression n) (ePost 15 c t) t c.
Proof. apply (expr_text fl n). lia. Qed.

Lemma unreadAll_text : forall r t c, seven r -> twp (unreadAll r) (fun _ t' c' => t' = rev r ++ t /\ c' = c) t c.
Proof.
  induction r as [|a r IH]; intros t c S; cbn [unreadAll].
  - apply twp_ret. auto.
  - apply seven_cons in S. destruct S as [S1 S2]. eapply twp_unread; [reflexivity|auto|].
    cbn [rev]. rewrite <- app_assoc. apply IH. auto.
Qed.
Lemma twp_unreadAll {B} (f : unit -> C B) P r t t' c : seven r -> t' = rev r ++ t -> twp (f tt) P t' c ->
  twp (bind (unreadAll r) f) P t c.
Proof. intros S -> H. eapply twp_use; [apply unreadAll_text; auto|]. intros [] t' c' [-> ->]. exact H. Qed.

Lemma letter_start ch t : letter ch -> token_start (ch :: t).
Proof.
  intros H. apply IsLetter_letter in H. split.
  - intros W. apply IsSpace_white in W. destruct ch as [[] [] [] [] [] [] [] []]; vm_compute in H, W; discriminate.
  - intros ->. discriminate.
Qed.

(** The look-ahead for else. *)
Lemma twp_else {B} (f : bool -> C B) P t c :
  (noelse t -> twp (f false) P t c) ->
  (forall b t', t = $"else" ++ b :: t' -> ~ letter b -> ~ digit b -> twp (f true) P t' c) ->
  (twp (f true) P [] c) ->
  twp (bind elseFollows f) P t c.
Proof.
  intros H1 H2 H3. unfold elseFollows. apply twp_bind.
  change (list_ascii_of_string "else") with ["e"; "l"; "s"; "e"]%char. cbn [readElse].
  assert (NE : forall y, t = y -> (forall z, y <> $"else" ++ z) -> noelse t).
  { intros y -> K z E. exfalso. eapply K; eauto. }
  Ltac nope H1 NE := subst; apply H1; intros z K; discriminate K || (injection K; intros; congruence).
  apply twp_bind, twp_rc; [intros e ->; apply twp_ret; cbv iota; eapply twp_unreadAll; [constructor|reflexivity|]; apply twp_ret; nope H1 NE|].
  intros c1 t1 E1 HC1. destruct (Ascii.eqb_spec c1 "e") as [->|N1].
  2:{ apply twp_ret. eapply twp_unreadAll; [repeat constructor; lia|reflexivity|]. apply twp_ret. cbn [rev app]. nope H1 NE. }
  apply twp_rc; [intros e ->; apply twp_ret; cbv iota; eapply twp_unreadAll; [repeat constructor; lia|reflexivity|]; apply twp_ret; cbn [rev app]; nope H1 NE|].
  intros c2 t2 E2 HC2. destruct (Ascii.eqb_spec c2 "l") as [->|N2].
  2:{ apply twp_ret. eapply twp_unreadAll; [repeat constructor; lia|reflexivity|]. apply twp_ret. cbn [rev app]. nope H1 NE. }
  apply twp_rc; [intros e ->; apply twp_ret; cbv iota; eapply twp_unreadAll; [repeat constructor; lia|reflexivity|]; apply twp_ret; cbn [rev app]; nope H1 NE|].
  intros c3 t3 E3 HC3. destruct (Ascii.eqb_spec c3 "s") as [->|N3].
  2:{ apply twp_ret. eapply twp_unreadAll; [repeat constructor; lia|reflexivity|]. apply twp_ret. cbn [rev app]. nope H1 NE. }
  apply twp_rc; [intros e ->; apply twp_ret; cbv iota; eapply twp_unreadAll; [repeat constructor; lia|reflexivity|]; apply twp_ret; cbn [rev app]; nope H1 NE|].
  intros c4 t4 E4 HC4. destruct (Ascii.eqb_spec c4 "e") as [->|N4].
  2:{ apply twp_ret. eapply twp_unreadAll; [repeat constructor; lia|reflexivity|]. apply twp_ret. cbn [rev app]. nope H1 NE. }
  apply twp_ret. apply twp_rc; [intros e ->; apply twp_ret; exact H3|].
  intros b t5 E5 HC5. destruct (IsLetter b || IsDigit b)%bool eqn:LD.
  - eapply twp_unreadAll; [repeat constructor; lia|reflexivity|]. apply twp_ret. cbn [rev app]. subst. apply H1.
    intros y K. injection K as <-. exists b, t5. split; [auto|]. apply orb_prop in LD. rewrite IsLetter_letter, IsDigit_digit in LD. exact LD.
  - apply twp_ret. apply orb_false_elim in LD. destruct LD as [B1 B2]. eapply H2; [subst; reflexivity| |].
    + rewrite <- IsLetter_letter. congruence.
    + rewrite <- IsDigit_digit. congruence.
Qed.

(** ** Statements *)
(** The text after the word [kw] of a statement. *)
Definition dPost (kw : string) (c : cstate) (t : list ascii) (u : unit) (t' : list ascii) (c' : cstate) : Prop :=
  exists s y w', t = y ++ w' ++ t' /\ layout w' /\ (forall w, layout w -> then_ (w ++ y) -> xS s ($kw ++ w ++ y)) /\
    (openif s = true -> token_start t' /\ noelse t') /\ forall sw, yields (gS s sw) c sw c'.
Definition sPost (sw : swctx) (c : cstate) (t : list ascii) (sw' : swctx) (t' : list ascii) (c' : cstate) : Prop :=
  exists s w ss w', t = w ++ ss ++ w' ++ t' /\ layout w /\ layout w' /\ xS s ss /\
    (openif s = true -> token_start t' /\ noelse t') /\ yields (gS s sw) c sw' c'.

Lemma parseReturn_text n t c : twp (parseReturn n) (dPost "return" c t) t c.
Proof.
  unfold parseReturn. ts1. destruct (Ascii.eqb_spec ch ";") as [->|].
  { apply twp_genT; [auto with pure|]. intros [] c' Y. exists (SReturn None), ($";"), []. split; [exact E|].
    split; [constructor|]. split; [intros; constructor; auto|]. split; [discriminate|]. intros sw. ysbuild. }
  destruct (Ascii.eqb_spec ch "(") as [->|]; [|ts1].
  eapply twp_use; [apply parseExpression_text|]. intros v t1 c1 (e & w1 & s1 & w2 & E1 & L1 & L2 & HE & T1 & _ & Y).
  do 4 ts1. apply twp_genT; [auto with pure|]. intros [] c' Y2.
  exists (SReturn (Some e)), ($"(" ++ w1 ++ s1 ++ (w2 ++ w) ++ $")" ++ w0 ++ $";"), [].
  split; [subst; cbn; rapp; reflexivity|]. split; [constructor|]. split; [intros; constructor; auto using layout_cat|].
  split; [discriminate|]. intros sw. ysbuild.
Qed.

Lemma autoSize_text {B} (f : Z -> C B) P t c :
  (forall w1 z s w2 t', t = w1 ++ s ++ w2 ++ $"]" ++ t' -> layout w1 -> layout w2 -> (tNum z s \/ tChr z s \/ z = 0 /\ s = []) ->
     twp (f z) P t' c) -> twp (bind autoSize f) P t c.
Proof.
  intros H. unfold autoSize. do 4 ts1. destruct (Ascii.eqb_spec ch "]") as [->|].
  { ts1. apply (H w 0 [] []); auto; [subst; reflexivity|constructor]. }
  destruct (Ascii.eqb_spec ch QUOTE) as [->|].
  - ts1. apply twp_char. intros s z t2 E2 HZ. do 5 ts1. apply (H w z (QUOTE :: s) w0); auto. subst. cbn. rapp. reflexivity.
  - do 3 ts1. apply twp_number. intros w1 ds z t2 E2 L2 HN ND _. do 5 ts1. apply (H (w ++ w1) z ds w0); auto using layout_cat.
    + subst t t3 t2. rewrite E2. rapp. reflexivity.
    + destruct HN as [|[]]; auto.
Qed.

Definition lPostA (seen : list (string * Z)) (c : cstate) (t : list ascii) (ds : list (string * Z)) (t' : list ascii) (c' : cstate) : Prop :=
  exists w r s, t = w ++ s ++ t' /\ layout w /\ xAutos r s /\ ds = seen ++ r /\ c' = c /\ yields (checkAutos [] ds) c tt c.
Lemma autoLoop_text n : forall seen decls t c, seen = rev (map fst decls) -> yields (checkAutos [] decls) c tt c ->
  twp (autoLoop n seen decls) (lPostA decls c t) t c.
Proof.
  induction n as [|n IH]; intros seen decls t c ES Y; [apply twp_fuel|]. cbn [autoLoop].
  ts1. apply twp_get.
  destruct (mem x seen) eqn:M1; [ts1|]. destruct (mem x (map fst (c_locals c))) eqn:M2; [ts1|].
  assert (K : forall z, yields (checkAutos [] (decls ++ [(x, z)])) c tt c).
  { intros z. apply checkAutos_snoc; auto. rewrite app_nil_r, <- ES. auto. }
  assert (ER : forall z, x :: seen = rev (map fst (decls ++ [(x, z)]))).
  { intros z. rewrite map_app, rev_app_distr. cbn. congruence. }
  assert (END : forall z ws sx t', xAuto x z sx -> layout ws -> t = w ++ sx ++ ws ++ ";"%char :: t' ->
    lPostA decls c t (decls ++ [(x, z)]) t' c).
  { intros z ws sx t' HX HL Ez. exists w, [(x, z)], (sx ++ ws ++ $";"). split; [rewrite Ez; rapp; reflexivity|].
    split; [auto|]. split; [constructor; auto|]. auto. }
  assert (MORE : forall z ws sx t', xAuto x z sx -> layout ws -> t = w ++ sx ++ ws ++ ","%char :: t' ->
    twp (autoLoop n (x :: seen) (decls ++ [(x, z)])) (lPostA decls c t) t' c).
  { intros z ws sx t' HX HL Ez. eapply twp_mono; [apply IH; auto|].
    intros ds t2 c2 (w1 & r & s & E1 & L1 & HA & -> & -> & YA).
    exists w, ((x, z) :: r), (sx ++ ws ++ $"," ++ w1 ++ s). split; [rewrite Ez, E1; rapp; reflexivity|].
    split; [auto|]. split; [constructor; auto|]. rewrite <- app_assoc in YA |- *. auto. }
  ts1. ts1. destruct (Ascii.eqb_spec ch "[") as [->|].
  - apply autoSize_text. intros w1 z s w2 t4 E4 L4 L5 HZ.
    assert (HX : xAuto x z ($x ++ w0 ++ $"[" ++ w1 ++ s ++ w2 ++ $"]")) by (constructor; auto).
    ts1. ts1. destruct (Ascii.eqb_spec ch ";") as [->|].
    { apply twp_ret. eapply (END z); [exact HX|exact L1|]. subst. cbn. rapp. reflexivity. }
    destruct (Ascii.eqb_spec ch ",") as [->|]; [|ts1]. eapply (MORE z); [exact HX|exact L1|]. subst. cbn. rapp. reflexivity.
  - assert (HX : xAuto x (-1) ($x)) by (constructor; auto). destruct (Ascii.eqb_spec ch ";") as [->|].
    { apply twp_ret. eapply END; [exact HX|exact L0|]. subst. cbn. rapp. reflexivity. }
    destruct (Ascii.eqb_spec ch ",") as [->|]; [|ts1]. eapply MORE; [exact HX|exact L0|]. subst. cbn. rapp. reflexivity.
Qed.

Lemma parseAuto_text n t c : twp (parseAuto n) (dPost "auto" c t) t c.
Proof.
  unfold parseAuto. eapply twp_use; [apply autoLoop_text; [reflexivity|apply yields_ret]|].
  intros ds t1 c1 (w & r & s & E & L & HA & EQ & -> & Y). cbn [app] in EQ. subst r.
  apply twp_genT; [auto with pure|]. intros [] c' Y2. exists (SAuto ds), (w ++ s), []. split; [subst; rapp; reflexivity|].
  split; [constructor|]. split.
  - intros w1 L1 TH. rewrite app_assoc in TH. replace ($"auto" ++ w1 ++ w ++ s) with ($"auto" ++ (w1 ++ w) ++ s) by (rapp; reflexivity).
    apply xS_auto; auto using layout_cat.
  - split; [discriminate|]. intros sw. ysbuild.
Qed.

Definition nPost (close : ascii) (m : list string -> C unit) (c : cstate) (t : list ascii) (u : unit) (t' : list ascii) (c' : cstate) : Prop :=
  exists w ns s, t = w ++ s ++ t' /\ layout w /\ xNames close ns s /\ yields (m ns) c tt c'.
Lemma parseExtrn_text n : forall t c, twp (parseExtrn n) (nPost ";" genExtrn c t) t c.
Proof.
  induction n as [|n IH]; intros t c; [apply twp_fuel|]. cbn [parseExtrn]. do 4 ts1. destruct a.
  destruct (Ascii.eqb_spec ch ";") as [->|].
  - apply twp_ret. exists w, [x], ($x ++ w0 ++ $";"). split; [subst; rapp; reflexivity|]. split; [auto|].
    split; [constructor; auto|]. cbn [genExtrn]. ysbuild.
  - destruct (Ascii.eqb_spec ch ",") as [->|]; [|ts1]. eapply twp_mono; [apply IH|].
    intros [] t4 c4 (w1 & ns & s & E9 & L9 & HN & Y9). exists w, (x :: ns), ($x ++ w0 ++ $"," ++ w1 ++ s).
    split; [subst; rapp; reflexivity|]. split; [auto|]. split; [constructor; auto|]. cbn [genExtrn]. ysbuild.
Qed.

Lemma parseGoto_text t c : twp parseGoto (dPost "goto" c t) t c.
Proof.
  unfold parseGoto. do 7 ts1. apply twp_expectT. intros t3 E3.
  exists (SGoto x), (w ++ $x ++ w0 ++ $";"), []. split; [subst; rapp; reflexivity|]. split; [constructor|]. split.
  - intros w1 L1 TH. rewrite app_assoc in TH.
    replace ($"goto" ++ w1 ++ w ++ $x ++ w0 ++ $";") with ($"goto" ++ (w1 ++ w) ++ $x ++ w0 ++ $";") by (rapp; reflexivity).
    apply xS_goto; auto using layout_cat. rewrite app_assoc in TH. apply ns_app in TH. auto.
  - split; [discriminate|]. intros sw. ysbuild.
Qed.

Lemma caseValue_text {B} (f : Z -> C B) P t c : token_start t ->
  (forall z s t', t = s ++ t' -> (tNum z s \/ tChr z s) -> twp (f z) P t' c) -> twp (bind caseValue f) P t c.
Proof.
  intros T H. unfold caseValue. do 2 ts1. destruct (Ascii.eqb_spec ch QUOTE) as [->|].
  - apply twp_char. intros s z t2 E2 HZ. apply (H z (QUOTE :: s)); auto. subst. reflexivity.
  - destruct (IsDigit ch) eqn:D; [|ts1]. do 2 ts1. apply twp_number. intros w1 ds z t2 E2 L2 HN ND _.
    destruct (layout_token _ _ _ E2 L2 T) as [-> _]. cbn [app] in E2.
    apply (H z ds); auto. left. destruct HN as [|[-> ->]]; auto. exfalso. cbn in E2. subst t2. rewrite E in ND.
    apply ND. apply IsDigit_digit. auto.
Qed.

(** What was pushed back and read again. *)
Lemma word_prefix x : Forall ident_char x -> forall b a t, x ++ a = b ++ ";"%char :: t ->
  exists y, x ++ y = b ++ [";"%char] /\ a = y ++ t.
Proof.
  induction 1 as [|ch x HC HX IH]; intros b a t E.
  - exists (b ++ [";"%char]). split; [auto|]. cbn in E. rewrite E. rapp. reflexivity.
  - destruct b as [|ch' b].
    + exfalso. cbn in E. injection E as -> E. destruct HC as [HC|[HC|HC]]; [apply IsLetter_letter in HC|apply IsDigit_digit in HC|]; discriminate.
    + cbn in E. injection E as -> E. destruct (IH _ _ _ E) as (y & E1 & ->). exists y. split; [cbn; congruence|auto].
Qed.

Lemma xL_end l s : xL l s -> exists p, s = p ++ ["}"%char].
Proof.
  revert l s. fix IH 3. intros l s [|st ss w l' sl H1 H2 H3 H4].
  - exists []. reflexivity.
  - destruct (IH _ _ H3) as [p ->]. exists (ss ++ w ++ p). rapp. reflexivity.
Qed.
Lemma noelse_list l s t : xL l s -> noelse (s ++ t) -> noelse s.
Proof.
  intros H N y ->. destruct (N (y ++ t)) as (ch & y' & E & K); [rapp; reflexivity|].
  destruct y as [|d y]; [|injection E as -> _; eauto]. exfalso. destruct (xL_end _ _ H) as [p E1].
  apply (f_equal (@rev _)) in E1. rewrite (rev_app_distr p) in E1. cbn in E1. discriminate.
Qed.

Lemma statement_nil n sw P c : twp (statement n sw) P [] c.
Proof.
  destruct n; [apply twp_fuel|]. cbn [statement]. ts1. destruct w; [|discriminate]. cbn in E. subst. ts1. discriminate.
Qed.

Lemma rest_stop s w t : rest s w t -> stop 15 t -> not_starting (fun c => In c ["("; "!"; "-"; "+"; "*"; "&"]%char) t.
Proof.
  intros (_ & R1 & R2 & _) ST. destruct t as [|c r]; cbn [not_starting]; [exact I|]. cbn [not_starting] in R1. unfold stop in ST. cbn [oplevel] in ST.
  intros K. repeat (destruct K as [K|K]; [subst c; cbn in ST; try lia|]); [tauto| | |exact K].
  - destruct r as [|d r]; cbn in ST; [lia|]. destruct (Ascii.eqb_spec d "-") as [->|]; [|lia]. destruct (R2 _ _ eq_refl). congruence.
  - destruct r as [|d r]; cbn in ST; [lia|]. destruct (Ascii.eqb_spec d "+") as [->|]; [|lia]. destruct (R2 _ _ eq_refl). congruence.
Qed.

Theorem stmt_text n :
  (forall sw t c, twp (statement n sw) (sPost sw c t) t c) /\
  (forall sw t c, twp (blockLoop n sw) (fun sw' t' c' => exists l w sl, t = w ++ sl ++ t' /\ layout w /\ xL l sl /\
       yields (genL false l sw) c sw' c') t c) /\
  (forall sw t c, (exists ch r, t = ch :: r /\ letter ch) -> twp (keyword n sw) (sPost sw c t) t c) /\
  (forall t c, token_start t -> twp (parseIf n) (dPost "if" c t) t c) /\
  (forall t c, token_start t -> twp (parseWhile n) (dPost "while" c t) t c) /\
  (forall t c, token_start t -> twp (parseSwitch n) (dPost "switch" c t) t c) /\
  (forall sw t c, token_start t -> twp (parseCase n sw) (fun sw' t' c' => exists s y w', t = y ++ w' ++ t' /\ layout w' /\
       (forall w, layout w -> then_ (w ++ y) -> xS s ($"case" ++ w ++ y)) /\
       (openif s = true -> token_start t' /\ noelse t') /\ yields (gS s sw) c sw' c') t c).
Proof.
  induction n as [|n (IHs & IHb & IHk & IHif & IHw & IHsw & IHc)]; [repeat split; intros; apply twp_fuel|].
  split; [|split; [|split; [|split; [|split; [|split]]]]].
  - intros sw t c. cbn [statement]. ts1. ts1. destruct (Ascii.eqb_spec ch "{") as [->|].
    { eapply twp_mono; [apply IHb|]. intros sw' t2 c2 (l & w1 & sl & E1 & L1 & HL & Y).
      exists (SBlock l), w, ($"{" ++ w1 ++ sl), []. split; [subst; cbn; rapp; reflexivity|]. split; [auto|]. split; [constructor|].
      split; [constructor; auto|]. split; [discriminate|]. cbn [genS]. exact Y. }
    destruct (Ascii.eqb_spec ch ";") as [->|].
    { apply twp_ret. exists SNull, w, ($";"), []. split; [subst; reflexivity|]. split; [auto|]. split; [constructor|].
      split; [constructor|]. split; [discriminate|]. ysbuild. }
    destruct (IsLetter ch) eqn:LE.
    { ts1. eapply twp_mono; [apply IHk|].
      - exists ch, t1. split; [auto|]. apply IsLetter_letter. auto.
      - intros sw' t2 c2 (s & w1 & ss & w' & E1 & L1 & L2 & HS & HO & Y). exists s, (w ++ w1), ss, w'.
        split; [subst t; rewrite E1; rapp; reflexivity|]. auto using layout_cat. }
    ts1. eapply twp_use; [apply parseExpression_text|]. intros v t2 c2 (e & w1 & s1 & w2 & E1 & L1 & L2 & HE & T1 & _ & Y).
    do 2 ts1. apply twp_ret. destruct (layout_token _ _ _ E1 L1 T) as [-> _]. cbn [app] in E1.
    exists (SExpr e), w, (s1 ++ (w2 ++ w0) ++ $";"), []. split; [subst t t0 t2 t3; rewrite E1; rapp; reflexivity|]. split; [auto|].
    split; [constructor|]. split; [|split; [discriminate|ysbuild]]. constructor; auto using layout_cat.
    apply ns_app with (w2 ++ t2). rewrite <- E1, E0. cbn. rewrite <- IsLetter_letter. congruence.
  - intros sw t c. cbn [blockLoop]. ts1. ts1. destruct (Ascii.eqb_spec ch "}") as [->|].
    { apply twp_ret. exists SNil, w, ($"}"). split; [subst; reflexivity|]. split; [auto|]. split; [constructor|]. ysbuild. }
    ts1. eapply twp_use; [apply IHs|]. intros sw1 t2 c2 (s & w1 & ss & w2 & E1 & L1 & L2 & HS & HO & Y).
    eapply twp_mono; [apply IHb|]. intros sw2 t3 c3 (l & w3 & sl & E3 & L3 & HL & Y3).
    exists (SCons s l), (w ++ w1), (ss ++ (w2 ++ w3) ++ sl). split; [subst t; rewrite E1, E3; rapp; reflexivity|].
    split; [auto using layout_cat|]. split; [|ysbuild]. constructor; auto using layout_cat.
    intros O. destruct (HO O) as [TS NE]. destruct (layout_token _ _ _ E3 L3 TS) as [-> _]. cbn in E3. subst t2.
    eapply noelse_list; eauto.
  - intros sw t c (ch0 & r0 & E0 & LT). cbn [keyword].
    apply twp_ident. intros w0 x t1 E1 L1 HN NS TD. 
    destruct (layout_token _ _ _ E1 L1) as [-> _]; [subst t; apply letter_start; auto|]. cbn [app] in E1.
    assert (HI : ident x).
    { apply letter_ident; auto. destruct ($x) as [|c1 r1] eqn:EX.
      - exfalso. cbn in E1. subst t1. rewrite E0 in NS. apply NS. left. exact LT.
      - cbn in E1. exists c1, r1. split; [auto|]. rewrite E0 in E1. injection E1 as <- _. exact LT. }
    ts1.
    assert (HD : forall (m : C unit) kw, x = kw -> twp m (dPost kw c t0) t0 c -> twp (m ;;; ret sw) (sPost sw c t) t0 c).
    { intros m kw -> H. eapply twp_use; [exact H|]. intros [] t' c' (s & y & w' & E2 & L2 & HS & HO & Y). apply twp_ret.
      exists s, [], ($kw ++ w ++ y), w'. split; [rewrite E1, E, E2; rapp; reflexivity|]. split; [constructor|].
      split; [auto|]. split; [apply HS; auto|]. 2:{ auto. }
      rewrite E, E2 in NS. rewrite app_assoc in NS. apply ns_app in NS. exact NS. }
    destruct (String.eqb_spec x "return"); [apply (HD _ "return"%string); auto; apply parseReturn_text|].
    destruct (String.eqb_spec x "auto"); [apply (HD _ "auto"%string); auto; apply parseAuto_text|].
    destruct (String.eqb_spec x "extrn") as [EX|].
    { eapply twp_use; [apply parseExtrn_text|]. intros [] t2 c2 (w1 & ns & s & E2 & L2 & HS & Y). apply twp_ret.
      exists (SExtrn ns), [], ($"extrn" ++ (w ++ w1) ++ s), []. split; [rewrite E1, E, E2, EX; rapp; reflexivity|].
      split; [constructor|]. split; [constructor|]. split; [|split; [discriminate|ysbuild]]. constructor; auto using layout_cat.
      rewrite E, E2 in NS. rewrite !app_assoc in NS. apply ns_app in NS. exact NS. }
    destruct (String.eqb_spec x "if"); [apply (HD _ "if"%string); auto|].
    destruct (String.eqb_spec x "while"); [apply (HD _ "while"%string); auto|].
    destruct (String.eqb_spec x "switch"); [apply (HD _ "switch"%string); auto|].
    destruct (String.eqb_spec x "case") as [EX|].
    { eapply twp_mono; [apply IHc; auto|]. intros sw' t2 c2 (s & y & w' & E2 & L2 & HS & HO & Y).
      exists s, [], ($"case" ++ w ++ y), w'. split; [rewrite E1, E, E2, EX; rapp; reflexivity|]. split; [constructor|].
      split; [auto|]. split; [apply HS; auto|auto].
      rewrite E, E2 in NS. rewrite app_assoc in NS. apply ns_app in NS. exact NS. }
    destruct (String.eqb_spec x "goto"); [apply (HD _ "goto"%string); auto; apply parseGoto_text|].
    assert (NK : ~ In x keywords).
    { intros K. cbn in K. repeat (destruct K as [K|K]; [congruence|]). exact K. }
    ts1. destruct (Ascii.eqb_spec ch ":") as [->|].
    + do 3 ts1. eapply twp_mono; [apply IHs|]. intros sw' t3 c3 (s & w1 & ss & w' & E3 & L3 & L4 & HS & HO & Y4).
      exists (SLabel x s), [], ($x ++ w ++ $":" ++ w1 ++ ss), w'. split; [rewrite E1, E, E2, E3; cbn; rapp; reflexivity|]. split; [constructor|].
      split; [auto|]. split; [constructor; auto|]. split; [exact HO|]. ysbuild.
    + ts1. eapply twp_unreadAll; [apply Forall_rev; apply HN|rewrite rev_involutive; reflexivity|].
      eapply twp_use; [apply parseExpression_text|]. intros v t4 c2 (e & w1 & s1 & w2 & E4 & L4 & L5 & HE & T1 & _ & Y).
      apply twp_ws. intros w3 t5 E5 L6 T5. apply twp_expect. intros t6 E6. apply twp_ret.
      destruct (layout_token _ _ _ E4 L4) as [-> _].
      { destruct HI as (_ & _ & c1 & r1 & EX & LX). rewrite EX. apply letter_start. auto. }
      cbn [app] in E4. 
      destruct (word_prefix ($x) (proj1 HN) (s1 ++ w2 ++ w3) t0 t6) as (y & EY & EA).
      { rewrite E4. subst t4 t5. rapp. reflexivity. }
      exists (SExpr e), [], ($x ++ w ++ y), []. split; [rewrite E1, E, EA; rapp; reflexivity|]. split; [constructor|].
      split; [constructor|]. split; [|split; [discriminate|ysbuild]].
      apply (xS_word e x y s1 w (w2 ++ w3)); auto using layout_cat.
      * rewrite E, EA in NS. rewrite app_assoc in NS. apply ns_app in NS. exact NS.
      * apply ns_app with t6. rewrite <- EA, E2. cbn. congruence.
      * rewrite EY. rapp. reflexivity.
  - intros t c T. cbn [parseIf]. apply twp_expect. intros t1 E1.
    eapply twp_use; [apply parseExpression_text|]. intros v t2 k2 (e & w1 & s1 & w2 & E2 & L1 & L2 & HE & _ & _ & Ye).
    apply twp_ws. intros w3 t3 E3 L3 _. apply twp_expect. intros t4 E4.
    do 7 ts1. eapply twp_use; [apply IHs|]. intros sw1 t5 k5 (st1 & w4 & ss1 & w5 & E5 & L4 & L5 & HS1 & HO1 & Z1).
    do 2 ts1. apply twp_ws. intros w6 t6 E6 L6 T6.
    assert (EY : t = ($"(" ++ w1 ++ s1 ++ (w2 ++ w3) ++ $")" ++ w4 ++ ss1) ++ (w5 ++ w6) ++ t6).
    { rewrite E1, E2, E3, E4, E5, E6. cbn. rapp. reflexivity. }
    assert (O1 : openif st1 = true -> noelse t6).
    { intros O. destruct (HO1 O) as [TS NE]. destruct (layout_token _ _ _ E6 L6 TS) as [-> _]. cbn in E6. subst t6. exact NE. }
    apply twp_else.
    + intros NE. ts1. ts1. apply twp_genT; [auto with pure|]. intros [] k9 Z9.
      exists (SIf e st1), ($"(" ++ w1 ++ s1 ++ (w2 ++ w3) ++ $")" ++ w4 ++ ss1), (w5 ++ w6).
      split; [exact EY|]. split; [auto using layout_cat|]. split; [intros; constructor; auto using layout_cat|].
      split; [auto|]. intros sw. ysbuild.
    + intros b t7 E7 NL ND. ts1. eapply twp_use; [apply IHs|].
      intros sw2 t8 k8 (st2 & w7 & ss2 & w8 & E8 & L7 & L8 & HS2 & HO2 & Z2). ts1. ts1.
      apply twp_genT; [auto with pure|]. intros [] k9 Z9.
      exists (SIfElse e st1 st2), ($"(" ++ w1 ++ s1 ++ (w2 ++ w3) ++ $")" ++ w4 ++ ss1 ++ (w5 ++ w6) ++ $"else" ++ [b] ++ w7 ++ ss2), w8.
      split; [rewrite EY, E7, E8; rapp; reflexivity|]. split; [auto|]. split; [|split; [exact HO2|intros sw; ysbuild]].
      intros w Lw _. constructor; auto using layout_cat.
      destruct (openif st1) eqn:O; [|auto]. exfalso. destruct (O1 eq_refl _ E7) as (d & y' & K & KD). injection K as <- <-. tauto.
    + ts1. apply twp_bind. apply statement_nil.
  - intros t c T. cbn [parseWhile]. apply twp_expect. intros t1 E1. do 6 ts1.
    eapply twp_use; [apply parseExpression_text|]. intros v t2 k2 (e & w1 & s1 & w2 & E2 & L1 & L2 & HE & _ & _ & Ye).
    apply twp_ws. intros w3 t3 E3 L3 _. apply twp_expect. intros t4 E4.
    do 3 ts1. eapply twp_use; [apply IHs|]. intros sw1 t5 k5 (st1 & w4 & ss1 & w5 & E5 & L4 & L5 & HS1 & HO1 & Y1s).
    ts1. apply twp_genT; [auto with pure|]. intros [] k9 Z9.
    exists (SWhile e st1), ($"(" ++ w1 ++ s1 ++ (w2 ++ w3) ++ $")" ++ w4 ++ ss1), w5.
    split; [rewrite E1, E2, E3, E4, E5; cbn; rapp; reflexivity|]. split; [auto|].
    split; [intros; constructor; auto using layout_cat|]. split; [exact HO1|]. intros sw. ysbuild.
  - intros t c T. cbn [parseSwitch]. ts1.
    eapply twp_use; [apply parseExpression_text|]. intros v t2 k2 (e & w1 & s1 & w2 & E2 & L1 & L2 & HE & R2 & ST2 & Ye).
    do 5 ts1. eapply twp_use; [apply IHs|]. intros sw1 t5 k5 (st1 & w4 & ss1 & w5 & E5 & L4 & L5 & HS1 & HO1 & Y1s).
    do 2 ts1. apply twp_gen; [pure_tac|]. intros u k8 Z8. apply twp_genT; [auto with pure|]. intros [] k9 Z9.
    exists (SSwitch e st1), (w1 ++ s1 ++ (w2 ++ w4) ++ ss1), w5.
    split; [rewrite E2, E5; rapp; reflexivity|]. split; [auto|]. split; [|split; [exact HO1|intros sw; ysbuild]].
    intros w Lw TH. replace ($"switch" ++ w ++ w1 ++ s1 ++ (w2 ++ w4) ++ ss1) with ($"switch" ++ (w ++ w1) ++ s1 ++ (w2 ++ w4) ++ ss1) by (rapp; reflexivity).
    destruct (layout_token _ _ _ E5 L4 (proj1 R2)) as [-> _]. cbn [app] in E5. rewrite app_nil_r in *. subst t2.
    apply xS_switch; auto using layout_cat.
    + apply ns_app with (w2 ++ ss1). rewrite <- !app_assoc in *. exact TH.
    + intros (p & d & q & d' & q' & J1 & J2 & J3). destruct R2 as (_ & _ & _ & R2). apply R2. exists p, d, q, d', (q' ++ w5 ++ t5).
      split; [auto|]. split; [|auto]. rewrite app_assoc, J2. reflexivity.
    + eapply ns_app with (w5 ++ t5). apply (rest_stop _ _ _ R2 ST2).
  - intros sw t c T. cbn [parseCase]. destruct sw as [[id vals]|]; [|ts1].
    apply caseValue_text; [exact T|]. intros z sz t1 E1 HZ.
    apply twp_ws. intros w3 t3 E3 L3 _. apply twp_expect. intros t4 E4. do 3 ts1.
    eapply twp_mono; [apply IHs|]. intros sw1 t5 k5 (st1 & w4 & ss1 & w5 & E5 & L4 & L5 & HS1 & HO1 & Y1s).
    exists (SCase z st1), (sz ++ w3 ++ $":" ++ w4 ++ ss1), w5. split; [rewrite E1, E3, E4, E5; cbn; rapp; reflexivity|].
    split; [auto|]. split; [|split; [exact HO1|ysbuild]].
    intros w Lw TH. apply xS_case; auto. rewrite app_assoc in TH. apply ns_app in TH. exact TH.
Qed.

(** ** Definitions *)
Lemma parseIvalConst_text t c : token_start t ->
  twp parseIvalConst (fun v t' c' => exists i s, t = s ++ t' /\ xIval i s /\ yields (genIval i) c v c') t c.
Proof.
  intros T. unfold parseIvalConst. ts1. destruct (IsLetter ch). { do 2 ts1. ts1. }
  destruct (Ascii.eqb_spec ch QUOTE) as [->|].
  { apply twp_liftOr, twp_char. intros s z t1 E1 HZ. apply twp_ret. exists (IvInt z), (QUOTE :: s). split; [subst; reflexivity|].
    split; [apply xIval_chr; auto|]. ysbuild. }
  destruct (Ascii.eqb_spec ch DQUOTE) as [->|].
  { apply twp_string. intros s x t1 E1 HS. ts1. apply twp_ret. exists (IvStr x), (DQUOTE :: s). split; [subst; reflexivity|].
    split; [constructor; auto|]. cbn [genIval]. ysbuild. }
  destruct (Ascii.eqb_spec ch "-") as [->|].
  { apply twp_liftOr, twp_number. intros w ds z t1 E1 L HN ND _. apply twp_ret. exists (IvInt (wrap64 (- z))), ($"-" ++ w ++ ds).
    split; [subst; cbn; rapp; reflexivity|]. split; [|ysbuild]. apply xIval_neg with z; auto. apply wrap64_is_word. }
  ts1. apply twp_liftOr, twp_number. intros w ds z t1 E1 L HN ND _. apply twp_ret.
  destruct (layout_token _ _ _ E1 L T) as [-> _]. cbn [app] in E1. exists (IvInt z), ds. split; [auto|]. split; [constructor; auto|]. ysbuild.
Qed.

Lemma ivalLoop_text n : forall acc t c,
  twp (ivalLoop n acc) (fun ws t' c' => exists w vs s us, t = w ++ s ++ t' /\ layout w /\ xIvals vs s /\ ws = acc ++ us /\ yields (genIvals vs) c us c') t c.
Proof.
  induction n as [|n IH]; intros acc t c; [apply twp_fuel|]. cbn [ivalLoop].
  apply twp_ws. intros w t1 E1 L1 T1. eapply twp_use; [apply parseIvalConst_text; auto|]. intros v t2 k2 (i & s & E2 & HI & Z2).
  apply twp_ws. intros w2 t3 E3 L3 _. apply twp_read. intros ch t4 E4 HC. destruct (Ascii.eqb_spec ch ";") as [->|].
  { apply twp_ret. exists w, [i], (s ++ w2 ++ $";"), [v]. split; [rewrite E1, E2, E3, E4; rapp; reflexivity|].
    split; [auto|]. split; [constructor; auto|]. split; [auto|]. cbn [genIvals]. ysbuild. }
  destruct (Ascii.eqb_spec ch ",") as [->|]; [|ts1].
  eapply twp_mono; [apply IH|]. intros ws t5 k5 (w3 & vs & s3 & us & E5 & L5 & HV & -> & Z5).
  exists w, (i :: vs), (s ++ w2 ++ $"," ++ w3 ++ s3), (v :: us). split; [rewrite E1, E2, E3, E4, E5; rapp; reflexivity|].
  split; [auto|]. split; [constructor; auto|]. split; [rewrite <- app_assoc; reflexivity|]. cbn [genIvals]. ysbuild.
Qed.
Lemma xIvals_cons vs s : xIvals vs s -> vs <> []. Proof. destruct 1; discriminate. Qed.

(** The text after the name of a definition. *)
Definition defPost (name : string) (c : cstate) (t : list ascii) (u : unit) (t' : list ascii) (c' : cstate) : Prop :=
  exists d y w', t = y ++ w' ++ t' /\ layout w' /\ xD d ($name ++ y) /\ (openifD d = true -> token_start t' /\ noelse t') /\
    yields (genD false d) c tt c'.

Lemma parseGlobal_text n name t c : xname name -> then_ t ->
  twp (parseGlobal n name ;;; ClearTopLevelContext) (defPost name c t) t c.
Proof.
  intros HN TH. unfold parseGlobal. ts1. ts1. ts1. ts1. destruct (Ascii.eqb_spec ch ";") as [->|].
  - ts1. apply twp_genT; [auto with pure|]. intros [] k2 Z2.
    exists (DGlobal name []), ($";"), []. split; [auto|]. split; [constructor|]. split; [constructor; auto|].
    split; [discriminate|]. unfold genD. eapply yields_bind; [|exact Z2]. cbn [genIvals]. ysbuild.
  - ts1. ts1. ts1. eapply twp_use; [apply ivalLoop_text|]. intros ws t2 k2 (w & vs & s & us & E2 & L2 & HV & -> & Yv). cbn [app].
    apply twp_gen; [pure_tac|]. intros u k1 Z1. apply twp_genT; [auto with pure|]. intros [] k3 Z2.
    exists (DGlobal name vs), (w ++ s), []. split; [rewrite E2; rapp; reflexivity|]. split; [constructor|].
    split; [|split; [discriminate|]].
    { apply xD_init; auto.
      - rewrite E2 in TH. rewrite app_assoc in TH. apply ns_app in TH. exact TH.
      - apply ns_app with t2. rewrite <- app_assoc, <- E2, E. cbn. congruence. }
    unfold genD. eapply yields_bind; [|exact Z2].
    eapply yields_bind; [eassumption|]. cbv beta. eapply yields_bind; [eassumption|]. cbv beta.
    destruct us as [|u1 us]; [|exact Z1].
    exfalso. apply xIvals_cons in HV. destruct vs as [|v vs]; [auto|]. cbn [genIvals] in Yv.
    apply yields_bind_inv in Yv; [|auto with pure]. destruct Yv as (? & ? & _ & Yv).
    apply yields_bind_inv in Yv; [|auto with pure]. destruct Yv as (? & ? & _ & Yv).
    apply yields_ret_inv in Yv. destruct Yv; discriminate.
Qed.

Lemma parseVector_text n name t t0 c : xname name -> t0 = "["%char :: t ->
  twp (parseVector n name ;;; ClearTopLevelContext) (defPost name c t0) t c.
Proof.
  intros HN E0. unfold parseVector. ts1. ts1. ts1.
  apply twp_ws. intros w1 t1 E1 L1 T1. ts1. apply twp_read. intros ch t2 E2 HC.
  ts1. match goal with |- ParseText.twp _ (bind (if _ then _ else _) ?F) ?P _ ?k => assert (K : forall z w0 sz w2 t3, t = w0 ++ sz ++ w2 ++ $"]" ++ t3 ->
    layout w0 -> layout w2 -> xNum z sz -> twp (F z) P t3 k) end.
  { intros z w0 sz w2 t3 E3 L0 L2 HZ. cbv beta. ts1. apply twp_ws. intros w4 t4 E4 L4 T4. ts1. apply twp_read. intros d t5 E5 HD. ts1.
    destruct (Ascii.eqb_spec d ";") as [->|].
    - ts1. ts1. apply twp_genT; [auto with pure|]. intros [] k2 Z2.
      exists (DVector name z []), ($"[" ++ w0 ++ sz ++ w2 ++ $"]" ++ w4 ++ $";"), [].
      split; [rewrite E0, E3, E4, E5; cbn; rapp; reflexivity|]. split; [constructor|].
      split; [constructor; auto|]. split; [discriminate|].
      unfold genD. eapply yields_bind; [|exact Z2]. cbn [genIvals]. ysbuild.
    - ts1. ts1. eapply twp_use; [apply ivalLoop_text|]. intros ws t6 k2 (w5 & vs & s & us & E6 & L6 & HV & -> & Yv). cbn [app].
      apply twp_gen; [auto with pure|]. intros u k1 Z1. apply twp_genT; [auto with pure|]. intros [] k3 Z3.
      exists (DVector name z vs), ($"[" ++ w0 ++ sz ++ w2 ++ $"]" ++ (w4 ++ w5) ++ s), [].
      split; [rewrite E0, E3, E4, E6; cbn; rapp; reflexivity|]. split; [constructor|].
      destruct (layout_token _ _ _ E6 L6 T4) as [-> _]. cbn [app] in E6.
      split; [constructor; auto using layout_cat; left; split; [auto|]; split; [eapply ts_app; rewrite <- E6; exact T4|apply ns_app with t6; rewrite <- E6, E5; cbn; congruence]|].
      split; [discriminate|]. unfold genD. eapply yields_bind; [|exact Z3]. ysbuild. }
  destruct (Ascii.eqb_spec ch "]") as [->|].
  - ts1. apply (K 0 w1 [] []); auto; [rewrite E1, E2; reflexivity|constructor|right; auto].
  - do 3 ts1. apply twp_liftOr, twp_number. intros w3 ds z t3 E3 L3 HZ _ _. do 5 ts1.
    apply (K z (w1 ++ w3) ds w); auto using layout_cat. rewrite E1, E3, E, E4. rapp. reflexivity.
Qed.

Lemma parseArguments_text n : forall acc t c,
  twp (parseArguments n acc) (fun ps t' c' => exists w ns s, t = w ++ s ++ t' /\ layout w /\ xNames ")" ns s /\ ps = acc ++ ns /\ c' = c) t c.
Proof.
  induction n as [|n IH]; intros acc t c; [apply twp_fuel|]. cbn [parseArguments].
  apply twp_ws. intros w1 t1 E1 L1 _. apply twp_identOr. intros w2 x t2 E2 L2 HN _.
  apply twp_ws. intros w3 t3 E3 L3 _. apply twp_read. intros ch t4 E4 HC. destruct (Ascii.eqb_spec ch ")") as [->|].
  - apply twp_ret. exists (w1 ++ w2), [x], ($x ++ w3 ++ $")"). split; [rewrite E1, E2, E3, E4; rapp; reflexivity|].
    split; [auto using layout_cat|]. split; [constructor; auto|]. auto.
  - destruct (Ascii.eqb_spec ch ",") as [->|]; [|ts1]. eapply twp_mono; [apply IH|].
    intros ps t5 k5 (w & ns & s & E5 & L5 & HS & -> & ->).
    exists (w1 ++ w2), (x :: ns), ($x ++ w3 ++ $"," ++ w ++ s). split; [rewrite E1, E2, E3, E4, E5; rapp; reflexivity|].
    split; [auto using layout_cat|]. split; [constructor; auto|]. rewrite <- app_assoc. auto.
Qed.

Lemma parseFunction_text n name t t0 c : xname name -> t0 = "("%char :: t ->
  twp (parseFunction n name ;;; ClearTopLevelContext) (defPost name c t0) t c.
Proof.
  intros HN E0. unfold parseFunction. ts1. apply twp_read. intros ch t1 E1 HC. ts1.
  match goal with |- ParseText.twp _ (bind (if _ then _ else _) ?F) ?P _ ?k => assert (K : forall ps y t3, t = y ++ t3 ->
    (forall w b sb, layout w -> xS b sb -> xD (DFunction name ps b) ($name ++ $"(" ++ y ++ w ++ sb)) -> twp (F ps) P t3 k) end.
  { intros ps y t3 E3 HX. cbv beta. do 4 ts1. ts1. eapply twp_use; [apply stmt_text|].
    intros sw1 t5 k5 (b & w4 & sb & w5 & E5 & L4 & L5 & HS1 & HO1 & Ys).
    apply twp_gen; [auto with pure|]. intros u k1 Z1. apply twp_genT; [auto with pure|]. intros [] k3 Z3.
    exists (DFunction name ps b), ($"(" ++ y ++ w4 ++ sb), w5. split; [rewrite E0, E3, E5; cbn; rapp; reflexivity|].
    split; [auto|]. split; [apply HX; auto|]. split; [exact HO1|].
    unfold genD. eapply yields_bind; [|exact Z3]. ysbuild. }
  destruct (Ascii.eqb_spec ch ")") as [->|].
  - ts1. apply (K [] ($")")); [auto|]. intros w b sb L HB. apply (xD_fun0 name w b sb); auto.
  - ts1. ts1. eapply twp_use; [apply parseArguments_text|]. intros ps t2 k2 (w & ns & s & E2 & L2 & HS & EP & ->). cbn [app] in EP. subst ns.
    apply (K ps (w ++ s)); [rewrite E2; rapp; reflexivity|]. intros w' b sb L HB. rapp. apply (xD_fun name w ps s w' b sb); auto.
Qed.

Lemma declaration_text n name t c : xname name -> then_ t -> twp (declaration n name) (defPost name c t) t c.
Proof.
  intros HN TH. unfold declaration. apply twp_rc; [intros [| |] _; first [apply twp_err|apply twp_fail]|].
  intros ch t1 E1 HC. destruct (Ascii.eqb_spec ch "(") as [->|]; [apply parseFunction_text; auto|].
  destruct (Ascii.eqb_spec ch "[") as [->|]; [apply parseVector_text; auto|].
  ts1. eapply twp_unread; [exact E1|auto|]. apply parseGlobal_text; auto.
Qed.

Theorem ParseDeclarations_text n : forall t c,
  twp (ParseDeclarations n) (fun _ t' c' => exists ds w s, t = w ++ s ++ t' /\ t' = [] /\ layout w /\ xP ds s /\ yields (genP false ds) c tt c') t c.
Proof.
  induction n as [|n IH]; intros t c; [apply twp_fuel|]. cbn [ParseDeclarations].
  apply twp_ident. intros w x t1 E1 L1 HN NS TD. destruct (String.eqb_spec x EmptyString) as [->|NE].
  - apply twp_rc; [|intros; apply twp_err]. intros e ->. destruct e; try apply twp_fail. apply twp_ret.
    exists [], w, []. split; [rewrite E1; reflexivity|]. split; [auto|]. split; [auto|]. split; [constructor|apply yields_ret].
  - eapply twp_use; [apply declaration_text; [apply isname_dname; auto|exact NS]|].
    intros [] t2 k2 (d & y & w2 & E2 & L2 & HD & HO & Y). eapply twp_mono; [apply IH|].
    intros [] t3 k3 (ds & w3 & s & E3 & -> & L3 & HP & Y3). exists (d :: ds), w, (($x ++ y) ++ (w2 ++ w3) ++ s).
    split; [rewrite E1, E2, E3; rapp; reflexivity|]. split; [auto|]. split; [auto|].
    split; [|cbn [genP]; eapply yields_bind; eassumption]. constructor; auto using layout_cat.
    intros O. destruct (HO O) as [TS N]. destruct (layout_token _ _ _ E3 L3 TS) as [-> _]. cbn [app] in E3.
    rewrite app_nil_r in E3. subst t2. exact N.
Qed.
End T.

(** What is accepted is a text of a tree, and the module is generated for
    this tree. *)
Theorem compile_text inp failing m : seven inp -> compile inp failing = Ok m tt ->
  exists ds w s, inp = w ++ s /\ layout w /\ xP ds s /\ generate false ds = Ok m tt.
Proof.
  unfold compile, compile_from. intros S H.
  pose proof (ParseDeclarations_text failing (enough inp) inp NewCompiler S) as P. unfold wp in P.
  destruct (ParseDeclarations _ _) as [[] s0|e|]; try discriminate. injection H as <-.
  destruct P as (t' & c' & -> & S' & ds & w & s & E & -> & L & HP & Y). rewrite app_nil_r in E.
  exists ds, w, s. split; [auto|]. split; [auto|]. split; [auto|]. unfold generate. rewrite Y. reflexivity.
Qed.
