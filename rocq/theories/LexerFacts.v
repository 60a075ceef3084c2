(** * LexerFacts: proofs about the lexer model *)
From Coq Require Import List Ascii String ZArith NArith Lia Bool.
From Coq Require Import ZifyBool ZifyNat ZifyN.
From Verif Require Import Base Lexer LexerBuf SpecLex.
Import ListNotations.
Open Scope Z_scope.
Open Scope m_scope.

Ltac Zify.zify_post_hook ::= Z.div_mod_to_equations.

(** ** Characters *)
Lemma code_range c : 0 <= code c < 256.
Proof.
  unfold code. pose proof (N_ascii_bounded c). lia.
Qed.

Lemma code_inj a b : code a = code b -> a = b.
Proof.
  unfold code; intros H.
  rewrite <- (ascii_N_embedding a), <- (ascii_N_embedding b).
  f_equal. lia.
Qed.

Lemma code_byte_of z : code (byte_of z) = z mod 256.
Proof.
  unfold code, byte_of. rewrite N_ascii_embedding; lia.
Qed.

Lemma byte_of_code c : byte_of (code c) = c.
Proof. apply code_inj. rewrite code_byte_of. pose proof (code_range c). lia. Qed.

Lemma eqb_code a b : Ascii.eqb a b = (code a =? code b).
Proof.
  destruct (Ascii.eqb_spec a b) as [->|N].
  - lia.
  - symmetry. apply Z.eqb_neq. intros H. apply N, code_inj, H.
Qed.

Lemma IsSpace_white c : IsSpace c = true <-> white c.
Proof. unfold IsSpace, white. cbn [In]. lia. Qed.

Lemma IsSpace_white_false c : IsSpace c = false <-> ~ white c.
Proof. rewrite <- IsSpace_white. destruct (IsSpace c); split; congruence. Qed.

Lemma IsDigit_digit c : IsDigit c = true <-> digit c.
Proof. unfold IsDigit, digit. lia. Qed.

Lemma IsLetter_letter c : IsLetter c = true <-> letter c.
Proof. unfold IsLetter, letter. cbn [In]. pose proof (code_range c). lia. Qed.

Lemma IsIdent_ident c : IsIdent c = true <-> ident_char c.
Proof.
  unfold IsIdent, ident_char.
  rewrite <- IsLetter_letter, <- IsDigit_digit.
  destruct (Ascii.eqb_spec c "_"); destruct (IsLetter c), (IsDigit c); cbn; intuition congruence.
Qed.

Lemma IsIdent_false c : IsIdent c = false <-> ~ ident_char c.
Proof. rewrite <- IsIdent_ident. destruct (IsIdent c); split; congruence. Qed.

Lemma IsDigit_false c : IsDigit c = false <-> ~ digit c.
Proof. rewrite <- IsDigit_digit. destruct (IsDigit c); split; congruence. Qed.

Lemma white_slash : ~ white "/".
Proof. rewrite <- IsSpace_white. discriminate. Qed.

(** ** Words *)
Lemma wrap64_is_word z : is_word (wrap64 z) z.
Proof. unfold is_word, wrap64. lia. Qed.

Lemma is_word_unique a b v : is_word a v -> is_word b v -> a = b.
Proof. unfold is_word. lia. Qed.

Lemma is_word_wrap a v : is_word a v <-> a = wrap64 v.
Proof.
  split; [intros H; eapply is_word_unique; eauto using wrap64_is_word|intros ->; apply wrap64_is_word].
Qed.

Lemma wrap64_id z : - 2 ^ 63 <= z < 2 ^ 63 -> wrap64 z = z.
Proof. unfold wrap64. lia. Qed.

Lemma wrap64_range z : - 2 ^ 63 <= wrap64 z < 2 ^ 63.
Proof. unfold wrap64. lia. Qed.

Lemma wrap64_congr a b : (a - b) mod 2 ^ 64 = 0 -> wrap64 a = wrap64 b.
Proof. unfold wrap64. lia. Qed.

Lemma wrap64_mod z : (wrap64 z - z) mod 2 ^ 64 = 0.
Proof. unfold wrap64. lia. Qed.

Lemma wrap64_eqm a b : (exists k, a = b + k * 2 ^ 64) -> wrap64 a = wrap64 b.
Proof. intros [k ->]. apply wrap64_congr. replace (b + k * 2 ^ 64 - b) with (k * 2^64) by lia. apply Z.mod_mul. lia. Qed.

Lemma wrap64_k z : exists k, wrap64 z = z + k * 2 ^ 64.
Proof. unfold wrap64. exists (- ((z + 2 ^ 63) / 2 ^ 64)). lia. Qed.

Lemma wrap64_mul_add a b c : wrap64 (wrap64 a * b + c) = wrap64 (a * b + c).
Proof.
  destruct (wrap64_k a) as [k ->]. apply wrap64_eqm. exists (k * b). ring.
Qed.

Lemma wrap64_add_l a b : wrap64 (wrap64 a + b) = wrap64 (a + b).
Proof. destruct (wrap64_k a) as [k ->]. apply wrap64_eqm. exists k. ring. Qed.

Lemma wrap64_idem a : wrap64 (wrap64 a) = wrap64 a.
Proof. rewrite wrap64_id; auto using wrap64_range. Qed.

(** ** Comments *)
Lemma no_close_cons c t : no_close (c :: t) -> no_close t.
Proof. intros H a b E. apply (H (c :: a) b). cbn. congruence. Qed.

Lemma no_close_cons_intro c t :
  no_close t -> (c = "*"%char -> forall r, t <> "/"%char :: r) -> no_close (c :: t).
Proof.
  intros H1 H2 [|x a] b E; cbn in E; injection E; intros.
  - subst c. eapply H2; eauto.
  - eapply H1; eauto.
Qed.

Lemma comment_loop_skip t : forall r, no_close t ->
  comment_loop (t ++ "*"%char :: "/"%char :: r) = Some r.
Proof.
  induction t as [|c t IH]; intros r H; cbn [app comment_loop].
  - reflexivity.
  - specialize (IH r (no_close_cons _ _ H)).
    destruct (Ascii.eqb_spec c "*") as [->|N]; [|exact IH].
    destruct t as [|c2 t]; cbn [app] in *.
    + cbn. reflexivity.
    + destruct (Ascii.eqb_spec c2 "/") as [->|N2]; [|exact IH].
      exfalso. exact (H [] t eq_refl).
Qed.

Lemma comment_loop_None t : no_close t -> comment_loop t = None.
Proof.
  induction t as [|c t IH]; intros H; cbn [comment_loop]; [reflexivity|].
  specialize (IH (no_close_cons _ _ H)).
  destruct (Ascii.eqb_spec c "*") as [->|N]; [|exact IH].
  destruct t as [|c2 t]; [reflexivity|].
  destruct (Ascii.eqb_spec c2 "/") as [->|N2]; [|exact IH].
  exfalso. exact (H [] t eq_refl).
Qed.

Lemma comment_loop_inv : forall s,
  match comment_loop s with
  | Some r => exists t, no_close t /\ s = t ++ "*"%char :: "/"%char :: r
  | None => no_close s
  end.
Proof.
  induction s as [|c s IH]; cbn [comment_loop].
  - intros [|] ? E; discriminate E.
  - destruct (Ascii.eqb_spec c "*") as [->|N].
    + destruct s as [|c2 s2].
      * intros [|? [|]] ? E; discriminate E.
      * destruct (Ascii.eqb_spec c2 "/") as [->|N2].
        -- exists []. split; [|reflexivity]. intros [|] ? E; discriminate E.
        -- destruct (comment_loop (c2 :: s2)) as [r|].
           ++ destruct IH as (t & Ht & E). exists ("*"%char :: t). split; [|cbn; congruence].
              apply no_close_cons_intro; auto. intros _ r' Er. subst t.
              cbn in E. congruence.
           ++ apply no_close_cons_intro; auto; congruence.
    + destruct (comment_loop s) as [r|].
      * destruct IH as (t & Ht & E). exists (c :: t). split; [|cbn; congruence].
        apply no_close_cons_intro; auto; congruence.
      * apply no_close_cons_intro; auto; congruence.
Qed.

(** ** Whitespace *)
Definition end_ok (s : list ascii) (fl : bool) : Prop :=
  fl = false \/ (s <> [] /\ s <> ["/"%char]).

Lemma ws_loop_skip lay : layout lay -> forall n rest fl,
  token_start rest -> end_ok rest fl ->
  (List.length (lay ++ rest) < n)%nat ->
  whitespace_loop n (mkLexer (lay ++ rest) fl) = Ok tt (mkLexer rest fl).
Proof.
  induction 1 as [|c r W Hl IH|t r Ht Hl IH]; intros n rest fl HT HE Hn;
    (destruct n as [|n]; [exfalso; cbn in Hn; lia|]).
  - cbn [app] in *. cbn [whitespace_loop].
    destruct rest as [|c rest].
    + cbn. destruct HE as [->|[E _]]; [reflexivity|congruence].
    + destruct HT as [HW HC]. unfold bind at 1, tryRead at 1. cbn [l_in l_fail].
      rewrite (proj2 (IsSpace_white_false c) HW).
      destruct (Ascii.eqb_spec c "/") as [->|N].
      * unfold bind, tryRead. cbn [l_in l_fail].
        destruct rest as [|c2 rest].
        -- cbn. destruct HE as [->|[_ E]]; [reflexivity|congruence].
        -- cbn. destruct (Ascii.eqb_spec c2 "*") as [->|N2].
           ++ exfalso. eapply HC; reflexivity.
           ++ reflexivity.
      * reflexivity.
  - cbn [app] in *. cbn [whitespace_loop]. unfold bind at 1, tryRead at 1. cbn [l_in l_fail].
    rewrite (proj2 (IsSpace_white c) W). apply IH; auto. cbn in Hn. lia.
  - cbn [app] in *. cbn [whitespace_loop]. unfold bind at 1, tryRead at 1. cbn [l_in l_fail].
    rewrite (proj2 (IsSpace_white_false _) white_slash).
    cbn [Ascii.eqb Bool.eqb]. unfold bind at 1. cbn [tryRead l_in l_fail Ascii.eqb Bool.eqb].
    unfold bind, Comment. cbn [l_in l_fail].
    rewrite <- app_assoc. cbn [app]. rewrite comment_loop_skip by auto.
    apply IH; auto. cbn in Hn. rewrite <- app_assoc, app_length in Hn. cbn in Hn. lia.
Qed.

Lemma Whitespace_skip lay rest fl :
  layout lay -> token_start rest -> end_ok rest fl ->
  Whitespace (mkLexer (lay ++ rest) fl) = Ok tt (mkLexer rest fl).
Proof. intros. unfold Whitespace. apply ws_loop_skip; auto. Qed.

Lemma layout_app a b : layout a -> layout b -> layout (a ++ b).
Proof.
  induction 1; intros Hb; cbn; auto using lay_white.
  rewrite <- app_assoc. cbn. apply lay_comment; auto.
Qed.

(** Complete description of [Whitespace]. *)
Inductive ws_result (s : list ascii) (fl : bool) : result lexer unit -> Prop :=
| ws_ok lay rest : s = lay ++ rest -> layout lay -> token_start rest -> end_ok rest fl ->
    ws_result s fl (Ok tt (mkLexer rest fl))
| ws_unclosed lay t : s = lay ++ "/"%char :: "*"%char :: t -> layout lay -> no_close t -> fl = false ->
    ws_result s fl (Err (Msg "unclosed comment, expect '*/' to close the comment"))
| ws_io : fl = true -> ws_result s fl (Err IOErr).

Lemma ws_loop_spec : forall n s fl, (List.length s < n)%nat ->
  ws_result s fl (whitespace_loop n (mkLexer s fl)).
Proof.
  induction n as [|n IH]; intros s fl Hn; [lia|].
  cbn [whitespace_loop]. unfold bind at 1, tryRead at 1. cbn [l_in l_fail].
  destruct s as [|c s].
  - unfold end_err; cbn [l_fail]. destruct fl; cbn.
    + apply ws_io; reflexivity.
    + apply (ws_ok _ _ [] []); cbn; auto using lay_nil. left; reflexivity.
  - cbn in Hn. destruct (IsSpace c) eqn:ES.
    + assert (Hn' : (List.length s < n)%nat) by lia. specialize (IH s fl Hn').
      apply IsSpace_white in ES.
      destruct IH as [lay rest E HL HT HE|lay t E HL HC HF|HF]; subst.
      * apply (ws_ok _ _ (c :: lay) rest); cbn; auto using lay_white.
      * eapply (ws_unclosed _ _ (c :: lay)); cbn; eauto using lay_white.
      * apply ws_io; reflexivity.
    + apply IsSpace_white_false in ES.
      destruct (Ascii.eqb_spec c "/") as [->|N].
      * unfold bind at 1, tryRead at 1. cbn [l_in l_fail].
        destruct s as [|c2 s].
        -- unfold end_err; cbn. destruct fl; cbn.
           ++ apply ws_io; reflexivity.
           ++ apply (ws_ok _ _ [] ["/"%char]); cbn; auto using lay_nil.
              ** split; auto. intros; congruence.
              ** left; reflexivity.
        -- destruct (Ascii.eqb_spec c2 "*") as [->|N2].
           ++ unfold bind at 1. unfold Comment. cbn [l_in l_fail].
              pose proof (comment_loop_inv s) as HC.
              destruct (comment_loop s) as [r|].
              ** destruct HC as (t & Ht & ->).
                 assert (Hn' : (List.length r < n)%nat).
                 { cbn in Hn. rewrite app_length in Hn. cbn in Hn. lia. }
                 specialize (IH r fl Hn').
                 destruct IH as [lay rest E HL HT HE|lay t' E HL HC HF|HF]; subst.
                 --- apply (ws_ok _ _ ("/"%char :: "*"%char :: t ++ "*"%char :: "/"%char :: lay) rest);
                       cbn; auto using lay_comment. rewrite <- app_assoc. reflexivity.
                 --- apply (ws_unclosed _ _ ("/"%char :: "*"%char :: t ++ "*"%char :: "/"%char :: lay) t');
                       cbn; auto using lay_comment. rewrite <- app_assoc. reflexivity.
                 --- apply ws_io; reflexivity.
              ** destruct fl.
                 --- apply ws_io; reflexivity.
                 --- apply (ws_unclosed _ _ [] s); cbn; auto using lay_nil.
           ++ apply (ws_ok _ _ [] ("/"%char :: c2 :: s)); cbn; auto using lay_nil.
              ** split; auto. intros _ r' E. congruence.
              ** right; split; discriminate.
      * apply (ws_ok _ _ [] (c :: s)); cbn; auto using lay_nil.
        right; split; congruence.
Qed.

Lemma Whitespace_spec s fl : ws_result s fl (Whitespace (mkLexer s fl)).
Proof. unfold Whitespace. apply ws_loop_spec. cbn. lia. Qed.

Lemma Whitespace_token s fl : token_start s -> end_ok s fl ->
  Whitespace (mkLexer s fl) = Ok tt (mkLexer s fl).
Proof. intros. apply (Whitespace_skip []); auto using lay_nil. Qed.

(** ** Identifiers *)
Lemma ident_span_spec : forall s a b, ident_span s = (a, b) <->
  s = a ++ b /\ Forall ident_char a /\ not_starting ident_char b.
Proof.
  induction s as [|c s IH]; intros a b; cbn [ident_span].
  - split.
    + intros E; injection E; intros; subst. cbn. auto.
    + intros (E & _ & _). symmetry in E. apply app_eq_nil in E. destruct E; subst; reflexivity.
  - destruct (IsIdent c) eqn:EI.
    + apply IsIdent_ident in EI. destruct (ident_span s) as [a' b'] eqn:ES.
      destruct (IH a' b') as [IH1 _]. specialize (IH1 eq_refl). destruct IH1 as (-> & HA & HB).
      split.
      * intros E; injection E; intros; subst. cbn; auto.
      * intros (E & HA2 & HB2). destruct a as [|x a]; cbn in E.
        -- subst b. cbn in HB2. contradiction.
        -- injection E; intros E2 Ex. subst x. inversion HA2; subst.
           assert (H : (a', b') = (a, b)); [|congruence].
           apply IH. auto.
    + apply IsIdent_false in EI. split.
      * intros E; injection E; intros; subst. cbn; auto.
      * intros (E & HA2 & HB2). destruct a as [|x a]; cbn in E.
        -- subst b. reflexivity.
        -- exfalso. injection E; intros E2 Ex. subst x. inversion HA2; subst. contradiction.
Qed.

Lemma ident_not_white c : ident_char c -> ~ white c.
Proof.
  unfold ident_char, letter, digit, white. cbn [In].
  intros [H|[H| ->]]; [lia|lia|]. cbn. lia.
Qed.

Lemma ident_not_slash c : ident_char c -> c <> "/"%char.
Proof. rewrite <- IsIdent_ident. intros H ->. discriminate. Qed.

Lemma ident_token c s : ident_char c -> token_start (c :: s).
Proof.
  intros H. split; [apply ident_not_white; auto|].
  intros ->. exfalso. eapply ident_not_slash; eauto.
Qed.

Lemma Identifier_ok lay id rest fl :
  layout lay -> Forall ident_char id -> not_starting ident_char rest ->
  (id = [] -> token_start rest) -> end_ok (id ++ rest) fl -> (rest = [] -> fl = false) ->
  Identifier (mkLexer (lay ++ id ++ rest) fl) = Ok (go_string id) (mkLexer rest fl).
Proof.
  intros HL HI HR HT HE HF. unfold Identifier, bind.
  rewrite Whitespace_skip; auto.
  - cbn [l_in l_fail]. rewrite (proj2 (ident_span_spec (id ++ rest) id rest)) by auto.
    destruct rest; auto. rewrite HF; auto.
  - destruct id as [|c id]; [apply HT; reflexivity|].
    inversion HI; subst. cbn. apply ident_token; auto.
Qed.

Lemma Identifier_inv l name l' : Identifier l = Ok name l' ->
  exists lay id, l_in l = lay ++ id ++ l_in l' /\ layout lay /\ Forall ident_char id
    /\ not_starting ident_char (l_in l') /\ name = go_string id
    /\ (id = [] -> token_start (l_in l'))
    /\ l_fail l' = l_fail l.
Proof.
  destruct l as [s fl]. unfold Identifier, bind.
  destruct (Whitespace_spec s fl) as [lay rest E HL HT HE|lay t E HL HC HF|HF]; try discriminate.
  cbn [l_in l_fail]. destruct (ident_span rest) as [a b] eqn:ES.
  apply ident_span_spec in ES. destruct ES as (-> & HA & HB).
  intros H.
  assert (G : name = go_string a /\ l' = mkLexer b fl).
  { destruct b; [destruct fl; [discriminate|]|]; injection H; intros; subst; auto. }
  destruct G as [-> ->]. cbn [l_in l_fail]. subst s.
  exists lay, a. repeat split; auto. intros ->. exact HT.
Qed.

(** ** Numbers *)
Lemma number_loop_spec base : forall ds rest num,
  Forall digit ds -> not_starting digit rest ->
  number_loop base (wrap64 num) (ds ++ rest)
  = (wrap64 (num * base ^ Z.of_nat (List.length ds) + positional base ds), rest).
Proof.
  induction ds as [|d ds IH]; intros rest num HD HR; cbn [app number_loop positional List.length].
  - change (Z.of_nat 0) with 0. rewrite Z.pow_0_r.
    replace (num * 1 + 0) with num by lia.
    destruct rest as [|c rest]; [reflexivity|]. cbn [number_loop].
    cbn in HR. rewrite (proj2 (IsDigit_false c) HR). reflexivity.
  - inversion HD; subst. rewrite (proj2 (IsDigit_digit d)) by auto.
    rewrite wrap64_mul_add. rewrite IH by auto. f_equal. f_equal.
    rewrite Nat2Z.inj_succ, Z.pow_succ_r by lia. ring.
Qed.

Lemma digit_ident c : digit c -> ident_char c.
Proof. unfold ident_char. auto. Qed.

Lemma Number_ok lay ds rest fl :
  layout lay -> ds <> [] -> Forall digit ds -> not_starting digit rest ->
  (rest = [] -> fl = false) ->
  Number (mkLexer (lay ++ ds ++ rest) fl)
  = Ok (wrap64 (positional (match ds with c :: _ => if Ascii.eqb c "0" then 8 else 10 | [] => 10 end) ds))
       (mkLexer rest fl).
Proof.
  intros HL HN HD HR HF. unfold Number, bind.
  destruct ds as [|d ds]; [congruence|].
  inversion HD; subst.
  rewrite Whitespace_skip; auto.
  - cbn [l_in l_fail app].
    change (d :: ds ++ rest) with ((d :: ds) ++ rest).
    pose proof (number_loop_spec (if Ascii.eqb d "0" then 8 else 10) (d :: ds) rest 0 HD HR) as E.
    change (wrap64 0) with 0 in E. rewrite E. clear E.
    rewrite Z.mul_0_l, Z.add_0_l.
    destruct rest; auto. rewrite HF; auto.
  - cbn [app]. apply ident_token, digit_ident; auto.
  - right. split; [discriminate|]. cbn [app]. intros E. injection E; intros.
    eapply ident_not_slash; [apply digit_ident; eauto|eauto].
Qed.

(** ** Escapes, character constants, strings *)
Lemma Escape_spec c r fl :
  match Escape (mkLexer (c :: r) fl) with
  | Ok v l => In (c, code v) escapes /\ l = mkLexer r fl
  | Err _ => ~ In c (map fst escapes)
  | Fuel => False
  end.
Proof.
  destruct c as [[] [] [] [] [] [] [] []]; cbv -[In]; cbn [In];
    solve [ split; [tauto|reflexivity] | intuition discriminate ].
Qed.

Lemma escapes_fun e a b : In (e, a) escapes -> In (e, b) escapes -> a = b.
Proof.
  unfold escapes. cbn [In].
  intros H1 H2.
  repeat match goal with
  | H : _ \/ _ |- _ => destruct H
  | H : False |- _ => destruct H
  | H : (_, _) = (_, _) |- _ => injection H; clear H; intros; subst
  end; try reflexivity; try discriminate.
Qed.

Lemma Escape_ok e c r fl : In (e, code c) escapes ->
  Escape (mkLexer (e :: r) fl) = Ok c (mkLexer r fl).
Proof.
  intros H. pose proof (Escape_spec e r fl) as S.
  destruct (Escape (mkLexer (e :: r) fl)).
  - destruct S as [S ->]. f_equal. apply code_inj. eapply escapes_fun; eauto.
  - exfalso. apply S. change e with (fst (e, code c)). apply in_map. auto.
  - contradiction.
Qed.

Lemma item_length q s c : item q s c -> (1 <= List.length s)%nat.
Proof. destruct 1; cbn; lia. Qed.

(** What the literal loops do on one item. *)
Lemma item_step q s c : item q s c -> forall r fl,
  q <> "*"%char ->
  exists x s', s = x :: s' /\ x <> q /\
  (if Ascii.eqb x "*" then Escape else ret x) (mkLexer (s' ++ r) fl) = Ok c (mkLexer r fl).
Proof.
  destruct 1 as [c N1 N2|e c HIn]; intros r fl Hq.
  - exists c, []. repeat split; auto. destruct (Ascii.eqb_spec c "*"); [congruence|reflexivity].
  - exists "*"%char, [e]. repeat split; auto. cbn [app]. rewrite Ascii.eqb_refl.
    apply Escape_ok; auto.
Qed.

Lemma lor_shift v c : Z.lor (Z.shiftl v 8) (Z.land (code c) 255) = v * 256 + code c.
Proof.
  replace 255 with (Z.ones 8) by reflexivity.
  rewrite Z.land_ones by lia.
  pose proof (code_range c).
  rewrite Z.mod_small by (change (2^8) with 256; lia).
  rewrite <- Z.lxor_lor.
  - rewrite <- Z.add_nocarry_lxor.
    + rewrite Z.shiftl_mul_pow2 by lia. change (2^8) with 256. lia.
    + apply Z.bits_inj'. intros n Hn. rewrite Z.land_spec, Z.bits_0.
      destruct (Z_lt_ge_dec n 8).
      * rewrite Z.shiftl_spec_low by lia. reflexivity.
      * rewrite (Z.bits_above_log2 (code c)); [apply andb_false_r|lia|].
        destruct (Z.eq_dec (code c) 0) as [->|]; [cbn; lia|].
        apply Z.log2_lt_pow2; [lia|]. apply Z.lt_le_trans with (2^8); [change (2^8) with 256; lia|].
        apply Z.pow_le_mono_r; lia.
  - apply Z.bits_inj'. intros n Hn. rewrite Z.land_spec, Z.bits_0.
    destruct (Z_lt_ge_dec n 8).
    * rewrite Z.shiftl_spec_low by lia. reflexivity.
    * rewrite (Z.bits_above_log2 (code c)); [apply andb_false_r|lia|].
      destruct (Z.eq_dec (code c) 0) as [->|]; [cbn; lia|].
      apply Z.log2_lt_pow2; [lia|]. apply Z.lt_le_trans with (2^8); [change (2^8) with 256; lia|].
      apply Z.pow_le_mono_r; lia.
Qed.

Lemma QUOTE_star : QUOTE <> "*"%char. Proof. discriminate. Qed.
Lemma DQUOTE_star : DQUOTE <> "*"%char. Proof. discriminate. Qed.

(** Running the loop over [cs] (at most [i] characters). *)
Lemma character_loop_items : forall s cs, items QUOTE s cs -> forall i v r fl,
  (List.length cs <= i)%nat ->
  character_loop i (wrap64 v) (mkLexer (s ++ r) fl)
  = character_loop (i - List.length cs)
      (wrap64 (v * 256 ^ Z.of_nat (List.length cs) + big_endian cs)) (mkLexer r fl).
Proof.
  induction 1 as [|s c ss cs HI HS IH]; intros i v r fl Hi.
  - cbn [app List.length big_endian]. change (Z.of_nat 0) with 0.
    rewrite Nat.sub_0_r. f_equal. f_equal. rewrite Z.pow_0_r. lia.
  - cbn [List.length] in *. destruct i as [|i]; [lia|].
    destruct (item_step _ _ _ HI (ss ++ r) fl QUOTE_star) as (x & s' & -> & HQ & E).
    cbn [app]. rewrite <- app_assoc. cbn [character_loop]. unfold bind at 1, tryRead at 1. cbn [l_in l_fail].
    destruct (Ascii.eqb_spec x QUOTE) as [->|_]; [congruence|].
    unfold bind at 1. rewrite E. rewrite lor_shift, wrap64_mul_add.
    rewrite IH by lia. cbn [Nat.sub]. f_equal.
    f_equal. cbn [big_endian]. rewrite Nat2Z.inj_succ, Z.pow_succ_r by lia. ring.
Qed.

Lemma character_loop_quote i v r fl :
  character_loop i v (mkLexer (QUOTE :: r) fl) = Ok v (mkLexer r fl).
Proof. destruct i; cbn; reflexivity. Qed.

Lemma Character_ok s cs r fl : items QUOTE s cs -> (List.length cs <= 8)%nat ->
  Character (mkLexer (s ++ QUOTE :: r) fl) = Ok (wrap64 (big_endian cs)) (mkLexer r fl).
Proof.
  intros H HL. unfold Character.
  change 0 with (wrap64 0). rewrite (character_loop_items _ _ H) by auto.
  rewrite character_loop_quote. reflexivity.
Qed.

Lemma character_loop_inv : forall i v l z l',
  character_loop i v l = Ok z l' ->
  exists s cs, items QUOTE s cs /\ (List.length cs <= i)%nat /\
    l_in l = s ++ QUOTE :: l_in l' /\ l_fail l' = l_fail l.
Proof.
  induction i as [|i IH]; intros v [s fl] z l'; cbn [character_loop]; unfold bind at 1, tryRead at 1; cbn [l_in l_fail].
  - destruct s as [|c s]; [discriminate|].
    destruct (Ascii.eqb_spec c QUOTE) as [->|]; [|discriminate].
    cbn. intros E; injection E; intros; subst. exists [], []. cbn. repeat split; auto. constructor.
  - destruct s as [|c s]; [cbn; discriminate|].
    destruct (Ascii.eqb_spec c QUOTE) as [->|NQ].
    + cbn. intros E; injection E; intros; subst. exists [], []. cbn. repeat split; auto; [constructor|lia].
    + unfold bind. destruct (Ascii.eqb_spec c "*") as [->|NS].
      * destruct s as [|e s]; [destruct fl; discriminate|].
        pose proof (Escape_spec e s fl) as ES.
        destruct (Escape (mkLexer (e :: s) fl)) as [c' l2| |]; try discriminate.
        destruct ES as [HIn ->]. intros H. apply IH in H.
        destruct H as (s' & cs & HI & HL & E & EF). cbn in E, EF. subst s.
        exists (["*"%char; e] ++ s'), (c' :: cs). repeat split; auto.
        -- constructor; auto. constructor; auto.
        -- cbn; lia.
      * intros H. cbn in H. apply IH in H.
        destruct H as (s' & cs & HI & HL & E & EF). cbn in E, EF. subst s.
        exists ([c] ++ s'), (c :: cs). repeat split; auto.
        -- constructor; auto. constructor; auto.
        -- cbn; lia.
Qed.

Lemma Character_inv l z l' : Character l = Ok z l' ->
  exists s cs, items QUOTE s cs /\ (List.length cs <= 8)%nat /\
    l_in l = s ++ QUOTE :: l_in l' /\ l_fail l' = l_fail l /\ z = wrap64 (big_endian cs).
Proof.
  intros H. destruct (character_loop_inv _ _ _ _ _ H) as (s & cs & HI & HL & E & EF).
  exists s, cs. repeat split; auto.
  destruct l as [i fl], l' as [i' fl']. cbn [l_in l_fail] in *. subst.
  rewrite (Character_ok s cs i' fl) in H by auto. congruence.
Qed.

Lemma string_loop_items : forall s cs, items DQUOTE s cs -> forall n acc r fl,
  (List.length s < n)%nat ->
  string_loop n acc (mkLexer (s ++ DQUOTE :: r) fl)
  = Ok (go_string (rev acc ++ cs)) (mkLexer r fl).
Proof.
  induction 1 as [|s c ss cs HI HS IH]; intros n acc r fl Hn;
    (destruct n as [|n]; [exfalso; lia|]).
  - cbn [app string_loop]. unfold bind, tryRead. cbn [l_in l_fail].
    rewrite Ascii.eqb_refl. cbn. rewrite app_nil_r. reflexivity.
  - destruct (item_step _ _ _ HI (ss ++ DQUOTE :: r) fl DQUOTE_star) as (x & s' & -> & HQ & E).
    cbn [app]. rewrite <- app_assoc. cbn [string_loop]. unfold bind at 1, tryRead at 1. cbn [l_in l_fail].
    destruct (Ascii.eqb_spec x DQUOTE) as [->|_]; [congruence|].
    unfold bind at 1. rewrite E. rewrite IH.
    + cbn. rewrite <- app_assoc. reflexivity.
    + cbn in Hn. rewrite app_length in Hn. lia.
Qed.

Lemma String_ok s cs r fl : items DQUOTE s cs ->
  String_ (mkLexer (s ++ DQUOTE :: r) fl) = Ok (go_string cs) (mkLexer r fl).
Proof.
  intros H. unfold String_. rewrite (string_loop_items _ _ H); [reflexivity|].
  cbn [l_in]. rewrite app_length. cbn. lia.
Qed.

Lemma string_loop_inv : forall n acc l str l',
  string_loop n acc l = Ok str l' ->
  exists s cs, items DQUOTE s cs /\ l_in l = s ++ DQUOTE :: l_in l' /\ l_fail l' = l_fail l
    /\ str = go_string (rev acc ++ cs).
Proof.
  induction n as [|n IH]; intros acc [s fl] str l'; cbn [string_loop]; [discriminate|].
  unfold bind at 1, tryRead at 1; cbn [l_in l_fail].
  destruct s as [|c s]; [unfold end_err; cbn; destruct fl; discriminate|].
  destruct (Ascii.eqb_spec c DQUOTE) as [->|NQ].
  - cbn. intros E; injection E; intros; subst. exists [], []. cbn.
    rewrite app_nil_r. repeat split; auto. constructor.
  - unfold bind. destruct (Ascii.eqb_spec c "*") as [->|NS].
    + destruct s as [|e s]; [destruct fl; discriminate|].
      pose proof (Escape_spec e s fl) as ES.
      destruct (Escape (mkLexer (e :: s) fl)) as [c' l2| |]; try discriminate.
      destruct ES as [HIn ->]. intros H. apply IH in H.
      destruct H as (s' & cs & HI & E & EF & Estr). cbn in E, EF. subst s.
      exists (["*"%char; e] ++ s'), (c' :: cs). repeat split; auto.
      * constructor; auto. constructor; auto.
      * rewrite Estr. cbn. rewrite <- app_assoc. reflexivity.
    + intros H. cbn in H. apply IH in H.
      destruct H as (s' & cs & HI & E & EF & Estr). cbn in E, EF. subst s.
      exists ([c] ++ s'), (c :: cs). repeat split; auto.
      * constructor; auto. constructor; auto.
      * rewrite Estr. cbn. rewrite <- app_assoc. reflexivity.
Qed.

Lemma String_inv l str l' : String_ l = Ok str l' ->
  exists s cs, items DQUOTE s cs /\ l_in l = s ++ DQUOTE :: l_in l' /\ l_fail l' = l_fail l
    /\ str = go_string cs.
Proof. apply (string_loop_inv _ []). Qed.

(** Fuel is never exhausted in the lexer. *)
Lemma string_loop_fuel : forall n acc l, (List.length (l_in l) < n)%nat -> string_loop n acc l <> Fuel.
Proof.
  induction n as [|n IH]; intros acc [s fl] Hn; [lia|].
  cbn [string_loop]. unfold bind at 1, tryRead at 1; cbn [l_in l_fail] in *.
  destruct s as [|c s]; [unfold end_err; cbn; destruct fl; discriminate|].
  destruct (Ascii.eqb c DQUOTE); [discriminate|].
  unfold bind. destruct (Ascii.eqb c "*").
  - destruct s as [|e s]; [destruct fl; discriminate|].
    pose proof (Escape_spec e s fl) as ES.
    destruct (Escape (mkLexer (e :: s) fl)) as [c' l2| |]; try discriminate; [|contradiction].
    destruct ES as [_ ->]. apply IH. cbn in *. lia.
  - cbn. apply IH. cbn in *. lia.
Qed.

Lemma String_fuel l : String_ l <> Fuel.
Proof. unfold String_. apply string_loop_fuel. lia. Qed.

Lemma character_loop_fuel : forall i v l, character_loop i v l <> Fuel.
Proof.
  induction i as [|i IH]; intros v [s fl]; cbn [character_loop]; unfold bind at 1, tryRead at 1; cbn [l_in l_fail].
  - destruct s as [|c s]; [discriminate|]. destruct (Ascii.eqb c QUOTE); discriminate.
  - destruct s as [|c s]; [discriminate|]. destruct (Ascii.eqb c QUOTE); [discriminate|].
    unfold bind. destruct (Ascii.eqb c "*").
    + destruct s as [|e s]; [destruct fl; discriminate|].
      pose proof (Escape_spec e s fl) as ES.
      destruct (Escape (mkLexer (e :: s) fl)) as [c' l2| |]; try discriminate; [|contradiction]. apply IH.
    + cbn. apply IH.
Qed.

Lemma Whitespace_fuel l : Whitespace l <> Fuel.
Proof.
  destruct l as [s fl]. destruct (Whitespace_spec s fl); discriminate.
Qed.

Lemma Identifier_fuel l : Identifier l <> Fuel.
Proof.
  unfold Identifier, bind. pose proof (Whitespace_fuel l).
  destruct (Whitespace l) as [? l1| |]; try congruence.
  destruct (ident_span (l_in l1)) as [a0 [|? ?]]; [destruct (l_fail l1)|]; discriminate.
Qed.

Lemma Number_fuel l : Number l <> Fuel.
Proof.
  unfold Number, bind. pose proof (Whitespace_fuel l).
  destruct (Whitespace l) as [? l1| |]; try congruence.
  destruct (l_in l1) as [|c r]; [discriminate|].
  destruct (number_loop _ _ _) as [z0 [|? ?]]; [destruct (l_fail l1)|]; discriminate.
Qed.

(** [Number] consumes a digit run (possibly empty) after layout. *)
Lemma number_loop_inv base : forall s num z b, number_loop base num s = (z, b) ->
  exists ds, s = ds ++ b /\ Forall digit ds /\ not_starting digit b.
Proof.
  induction s as [|c s IH]; intros num z b; cbn [number_loop].
  - intros E; injection E; intros; subst. exists []; cbn; auto.
  - destruct (IsDigit c) eqn:ED.
    + intros E. destruct (IH _ _ _ E) as (ds & -> & HD & HB).
      exists (c :: ds). cbn. repeat split; auto. constructor; auto. apply IsDigit_digit; auto.
    + intros E; injection E; intros; subst. exists []; cbn. repeat split; auto.
      apply IsDigit_false; auto.
Qed.

Lemma Number_inv l z l' : Number l = Ok z l' ->
  exists lay ds, l_in l = lay ++ ds ++ l_in l' /\ layout lay /\ Forall digit ds
    /\ not_starting digit (l_in l') /\ ds ++ l_in l' <> [] /\ l_fail l' = l_fail l
    /\ (l_in l' = [] -> l_fail l = false).
Proof.
  destruct l as [s fl]. unfold Number, bind.
  destruct (Whitespace_spec s fl) as [lay rest E HL HT HE|lay t E HL HC HF|HF]; try discriminate.
  cbn [l_in l_fail]. destruct rest as [|c rest]; [discriminate|].
  destruct (number_loop _ 0 (c :: rest)) as [num b] eqn:EN.
  apply number_loop_inv in EN. destruct EN as (ds & E2 & HD & HB).
  intros H.
  assert (G : z = num /\ l' = mkLexer b fl /\ (b = [] -> fl = false)).
  { destruct b; [destruct fl; [discriminate|]|]; injection H; intros; subst; auto.
    repeat split; auto. discriminate. }
  destruct G as (-> & -> & HF). cbn [l_in l_fail]. subst s.
  exists lay, ds. repeat split; auto; try congruence.
Qed.

(** ** The push-back buffer *)
(** Characters a buffer will deliver. *)
Fixpoint reader_bytes (rs : list outcome) : list ascii :=
  match rs with RByte c :: r => c :: reader_bytes r | _ => [] end.

Definition view (b : buflexer) : list ascii := rev (bl_buffer b) ++ reader_bytes (bl_reader b).

Definition plain (b : buflexer) : Prop :=
  Forall (fun o => exists c, o = RByte c) (bl_reader b).

Lemma rev_last_removelast {A} (d : A) (l : list A) : l <> [] ->
  rev l = last l d :: rev (removelast l).
Proof.
  intros H. rewrite (app_removelast_last d H) at 1. rewrite rev_app_distr. reflexivity.
Qed.

Lemma read_buf_view b : plain b ->
  match view b with
  | [] => ReadChar_buf b = (inl (bl_end b), b)
  | c :: r => exists b', ReadChar_buf b = (inr c, b') /\ view b' = r /\ plain b' /\ bl_end b' = bl_end b
  end.
Proof.
  destruct b as [buf rd e]. unfold plain, view, ReadChar_buf; cbn [bl_buffer bl_reader bl_end].
  intros HP. destruct buf as [|x buf].
  - cbn [rev app]. unfold ReadRune; cbn. destruct HP as [|o rd [c ->] HP]; cbn.
    + reflexivity.
    + eexists. repeat split; cbn; auto.
  - rewrite (rev_last_removelast NUL) by discriminate. cbn [app].
    eexists. repeat split; cbn; auto.
Qed.

Lemma unread_buf_view c b : plain b ->
  view (UnreadChar_buf c b) = c :: view b /\ plain (UnreadChar_buf c b)
  /\ bl_end (UnreadChar_buf c b) = bl_end b.
Proof.
  intros H. unfold view, UnreadChar_buf, plain; cbn. rewrite rev_app_distr. auto.
Qed.

(** ** UTF-8 *)
Lemma utf8_ascii c : code c < 128 -> utf8 c = [c].
Proof. unfold utf8. intros. destruct (Z.ltb_spec (code c) 128); [reflexivity|lia]. Qed.

Lemma utf8_seven cs : Forall (fun c => code c < 128) cs -> flat_map utf8 cs = cs.
Proof. induction 1; cbn; auto. rewrite utf8_ascii by auto. cbn. congruence. Qed.

Lemma go_string_seven cs : Forall (fun c => code c < 128) cs ->
  go_string cs = string_of_list_ascii cs.
Proof. intros. unfold go_string. rewrite utf8_seven; auto. Qed.

Lemma list_go_string cs : list_ascii_of_string (go_string cs) = flat_map utf8 cs.
Proof. unfold go_string. apply list_ascii_of_string_of_list_ascii. Qed.
