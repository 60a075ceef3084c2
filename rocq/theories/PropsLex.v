(** * PropsLex: properties C01-C07 *)
From Coq Require Import List Ascii String ZArith NArith Lia Bool.
From Verif Require Import Base Lexer LexerBuf IR Builder Expr SpecLex LexerFacts.
Import ListNotations.
Open Scope Z_scope.

Local Notation "$ s" := (list_ascii_of_string s) (at level 0, s at level 0).

(** ** C01 integer literals *)

(** The base used for a digit string. *)
Definition base_of (ds : list ascii) : Z :=
  match ds with d :: _ => if Z.eqb (code d) 48 then 8 else 10 | [] => 10 end.

(** After any layout, a maximal digit run is read as its positional value
    modulo 2^64, and exactly the run is consumed. *)
Theorem C01_number_value : forall lay ds rest fl,
  layout lay -> ds <> [] -> Forall digit ds -> not_starting digit rest ->
  (rest = [] -> fl = false) ->
  exists z, Number (mkLexer (lay ++ ds ++ rest) fl) = Ok z (mkLexer rest fl)
            /\ is_word z (positional (base_of ds) ds).
Proof.
  intros lay ds rest fl HL HN HD HR HF. eexists. split; [apply Number_ok; auto|].
  destruct ds as [|d ds]; [congruence|]. cbn [base_of].
  rewrite eqb_code. change (code "0") with 48. apply wrap64_is_word.
Qed.
Print Assumptions C01_number_value.

(** A literal that fits in a word has exactly its positional value. *)
Theorem C01_number_exact : forall ds rest fl,
  ds <> [] -> Forall digit ds -> not_starting digit rest -> (rest = [] -> fl = false) ->
  positional (base_of ds) ds < 2 ^ 63 ->
  Number (mkLexer (ds ++ rest) fl) = Ok (positional (base_of ds) ds) (mkLexer rest fl).
Proof.
  intros ds rest fl HN HD HR HF HV.
  destruct (C01_number_value [] ds rest fl lay_nil HN HD HR HF) as (z & E & W).
  cbn [app] in E. rewrite E. f_equal. eapply is_word_unique; [exact W|].
  split; [|rewrite Z.sub_diag; reflexivity]. split; [|exact HV].
  assert (B : 8 <= base_of ds) by (destruct ds; cbn; [lia|destruct (_ =? _); lia]).
  assert (P : forall b l, 8 <= b -> Forall digit l -> 0 <= positional b l).
  { intros b l Hb H. induction H as [|d l Hd H IH]; cbn [positional]; [lia|].
    unfold digit in Hd. assert (0 < b ^ Z.of_nat (List.length l)) by (apply Z.pow_pos_nonneg; lia). nia. }
  specialize (P _ _ B HD). lia.
Qed.
Print Assumptions C01_number_exact.

Example C01_ex : Number (mkLexer $"01750;" false) = Ok 1000 (mkLexer $";" false)
  /\ Number (mkLexer $"18446744073709551617+x" false) = Ok 1 (mkLexer $"+x" false)
  /\ positional (base_of $"01750") $"01750" = 1000.
Proof. vm_compute. auto. Qed.

(** ** C02 character constants *)

(** Acceptance, value and extent, exactly (the opening quote is already
    consumed). *)
Theorem C02_character_iff : forall s fl z l,
  Character (mkLexer s fl) = Ok z l <->
  exists src cs rest, items QUOTE src cs /\ (List.length cs <= 8)%nat
    /\ s = src ++ QUOTE :: rest /\ l = mkLexer rest fl /\ is_word z (big_endian cs).
Proof.
  intros s fl z l. split.
  - intros H. destruct (Character_inv _ _ _ H) as (src & cs & HI & HL & E & EF & ->).
    cbn in E, EF. exists src, cs, (l_in l). repeat split; auto.
    + destruct l; cbn in *; congruence.
    + apply wrap64_range.
    + apply wrap64_is_word.
    + apply wrap64_is_word.
  - intros (src & cs & rest & HI & HL & -> & -> & HW).
    rewrite (Character_ok src cs) by auto. apply is_word_wrap in HW. congruence.
Qed.
Print Assumptions C02_character_iff.

(** Everything else is an error. *)
Theorem C02_character_rejects : forall s fl,
  (forall src cs rest, items QUOTE src cs -> (List.length cs <= 8)%nat -> s <> src ++ QUOTE :: rest) ->
  exists e, Character (mkLexer s fl) = Err e.
Proof.
  intros s fl H. destruct (Character (mkLexer s fl)) as [z l|e|] eqn:E.
  - apply C02_character_iff in E. destruct E as (src & cs & rest & HI & HL & E & _).
    exfalso. eapply H; eauto.
  - eauto.
  - exfalso. eapply character_loop_fuel; exact E.
Qed.
Print Assumptions C02_character_rejects.

Lemma items_split q s cs : items q s cs -> forall n, (n <= List.length cs)%nat ->
  exists s1 s2, s = s1 ++ s2 /\ items q s1 (firstn n cs) /\ items q s2 (skipn n cs).
Proof.
  induction 1 as [|s c ss cs HI HS IH]; intros n Hn.
  - exists [], []. destruct n; cbn; repeat split; constructor.
  - destruct n as [|n].
    + exists [], (s ++ ss). cbn. repeat split; constructor; auto.
    + destruct (IH n) as (s1 & s2 & -> & H1 & H2); [cbn in Hn; lia|].
      exists (s ++ s1), s2. cbn [firstn skipn]. rewrite app_assoc. repeat split; auto.
      constructor; auto.
Qed.

(** In particular nine or more characters, whatever follows, are an error. *)
Theorem C02_character_too_long : forall src cs rest fl,
  items QUOTE src cs -> (8 < List.length cs)%nat ->
  Character (mkLexer (src ++ rest) fl) = Err (Msg "unclosed char literal").
Proof.
  intros src cs rest fl HI HL.
  destruct (items_split _ _ _ HI 8) as (s1 & s2 & -> & H1 & H2); [lia|].
  unfold Character. change 0 with (wrap64 0). rewrite <- app_assoc.
  rewrite (character_loop_items _ _ H1) by (rewrite firstn_length; lia).
  rewrite firstn_length, Nat.min_l by lia.
  replace (8 - 8)%nat with 0%nat by lia.
  assert (exists x s', s2 = x :: s' /\ x <> QUOTE) as (x & s' & -> & Hx).
  { assert (HL2 : (0 < List.length (skipn 8 cs))%nat) by (rewrite skipn_length; lia).
    destruct H2 as [|s c ss cs' Hi Hs].
    - cbn in HL2. lia.
    - destruct (item_step _ _ _ Hi [] false QUOTE_star) as (x & s' & -> & Hx & _).
      exists x, (s' ++ ss). auto. }
  cbn [app character_loop]. unfold bind, tryRead. cbn [l_in].
  destruct (Ascii.eqb_spec x QUOTE); [contradiction|reflexivity].
Qed.
Print Assumptions C02_character_too_long.

Example C02_ex : Character (mkLexer $"a*n'x" false) = Ok (97 * 256 + 10) (mkLexer $"x" false)
  /\ items QUOTE $"a*n" $("a" ++ String LF "")
  /\ Character (mkLexer $"123456789'" false) = Err (Msg "unclosed char literal").
Proof.
  split; [reflexivity|split; [|reflexivity]].
  apply (items_cons QUOTE ["a"%char]); [constructor; discriminate|].
  apply (items_cons QUOTE ["*"%char; "n"%char] LF [] []); [|constructor].
  constructor. cbn. tauto.
Qed.

(** ** C03 escapes *)
Theorem C03_escape_iff : forall c r fl v l,
  Escape (mkLexer (c :: r) fl) = Ok v l <-> In (c, code v) escapes /\ l = mkLexer r fl.
Proof.
  intros c r fl v l. pose proof (Escape_spec c r fl) as S. split.
  - intros E. rewrite E in S. exact S.
  - intros [HIn ->]. apply Escape_ok; auto.
Qed.
Print Assumptions C03_escape_iff.

Lemma item_prefix q s1 c1 s2 c2 t1 t2 : q <> "*"%char ->
  item q s1 c1 -> item q s2 c2 -> s1 ++ t1 = s2 ++ t2 -> s1 = s2 /\ t1 = t2.
Proof.
  intros Hq H1 H2 E. destruct H1, H2; cbn in E; injection E; intros; subst; auto; congruence.
Qed.

Lemma items_no_bad q src cs : q <> "*"%char -> items q src cs -> forall c rest src' cs' rest',
  ~ In c (map fst escapes) -> items q src' cs' ->
  src ++ "*"%char :: c :: rest <> src' ++ q :: rest'.
Proof.
  intros Hq. induction 1 as [|s x ss cs Hi HI IH]; intros c rest src' cs' rest' HN HI' E.
  - cbn [app] in E. destruct HI' as [|s' x' ss' cs' Hi' HI'].
    + cbn in E. congruence.
    + destruct Hi' as [y N1 N2|e y HIn]; cbn in E; injection E; intros; subst; [congruence|].
      apply HN. change e with (fst (e, code y)). apply in_map; auto.
  - destruct HI' as [|s' x' ss' cs' Hi' HI'].
    + cbn [app] in E. destruct Hi; cbn in E; injection E; intros; congruence.
    + rewrite <- !app_assoc in E.
      destruct (item_prefix _ _ _ _ _ _ _ Hq Hi Hi' E) as [_ E2].
      eapply IH; eauto.
Qed.

(** '*' and any other byte is an error, wherever it stands in a string or a
    character constant. *)
Theorem C03_bad_escape_rejected : forall src cs c rest fl,
  ~ In c (map fst escapes) ->
  (items DQUOTE src cs -> exists e, String_ (mkLexer (src ++ "*"%char :: c :: rest) fl) = Err e) /\
  (items QUOTE src cs -> exists e, Character (mkLexer (src ++ "*"%char :: c :: rest) fl) = Err e).
Proof.
  intros src cs c rest fl HN. split; intros HI.
  - destruct (String_ _) as [str l|e|] eqn:E; [|eauto|exfalso; eapply String_fuel; eauto].
    apply String_inv in E. destruct E as (src' & cs' & HI' & E & _). cbn [l_in] in E.
    exfalso. exact (items_no_bad DQUOTE src cs DQUOTE_star HI c rest src' cs' (l_in l) HN HI' E).
  - destruct (Character _) as [z l|e|] eqn:E; [|eauto|exfalso; eapply character_loop_fuel; exact E].
    apply Character_inv in E. destruct E as (src' & cs' & HI' & _ & E & _). cbn [l_in] in E.
    exfalso. exact (items_no_bad QUOTE src cs QUOTE_star HI c rest src' cs' (l_in l) HN HI' E).
Qed.
Print Assumptions C03_bad_escape_rejected.

Example C03_ex : Escape (mkLexer $"(x" false) = Ok "{"%char (mkLexer $"x" false)
  /\ ~ In "q"%char (map fst escapes)
  /\ (exists e, String_ (mkLexer $("ab*qc" ++ String DQUOTE "") false) = Err e).
Proof. repeat split; [|eexists; reflexivity]. cbn. intuition discriminate. Qed.

(** ** C04 string literals *)

(** Contents of the object made for a string literal, for every content: the
    literal's bytes taken as Latin-1 characters and encoded in UTF-8, then NUL. *)
Theorem C04_string_object : forall n src cs rest fl c,
  items DQUOTE src cs ->
  exists v c', primary (S n) (mkSt (mkLexer (DQUOTE :: src ++ DQUOTE :: rest) fl) c)
     = Ok (v, false) (mkSt (mkLexer rest fl) c')
  /\ c_mglobals c' = c_mglobals c ++
       [mkGlob (".str." ++ dec (c_stringID c)) (GBytes (flat_map utf8 cs ++ [NUL])) true]
  /\ c_stringID c' = c_stringID c + 1.
Proof.
  intros n src cs rest fl c HI.
  cbn [primary]. unfold bind at 1, lift at 1. cbn [lx].
  rewrite Whitespace_token.
  2:{ split; [rewrite <- IsSpace_white; discriminate|discriminate]. }
  2:{ right; split; discriminate. }
  unfold bind at 1, rc, lift at 1. cbn [lx Builder.cs tryRead l_in l_fail].
  change (Ascii.eqb DQUOTE QUOTE) with false. rewrite Ascii.eqb_refl. cbn [lx Builder.cs].
  unfold bind at 1, lift at 1. cbn [lx Builder.cs]. rewrite (String_ok _ _ rest fl HI).
  cbn -[dec go_string]. do 2 eexists. split; [reflexivity|].
  cbn -[dec go_string]. rewrite list_go_string. auto.
Qed.
Print Assumptions C04_string_object.

(** Partial: for 7-bit contents the object holds exactly the literal's bytes
    and a NUL. Missing: bytes >= 0x80, see the refutation below. *)
Theorem C04_string_bytes_partial : forall n src cs rest fl c,
  items DQUOTE src cs -> Forall (fun x => code x < 128) cs ->
  exists v c', primary (S n) (mkSt (mkLexer (DQUOTE :: src ++ DQUOTE :: rest) fl) c)
     = Ok (v, false) (mkSt (mkLexer rest fl) c')
  /\ c_mglobals c' = c_mglobals c ++
       [mkGlob (".str." ++ dec (c_stringID c)) (GBytes (cs ++ [NUL])) true].
Proof.
  intros n src cs rest fl c HI H7.
  destruct (C04_string_object n src cs rest fl c HI) as (v & c' & E & G & _).
  rewrite utf8_seven in G by auto. eauto.
Qed.
Print Assumptions C04_string_bytes_partial.

(** What is not a sequence of characters and escapes closed by a quote is
    rejected. *)
Theorem C04_string_closed : forall inp fl,
  (forall src cs rest, items DQUOTE src cs -> inp <> src ++ DQUOTE :: rest) ->
  exists e, String_ (mkLexer inp fl) = Err e.
Proof.
  intros inp fl H. destruct (String_ _) as [str l|e|] eqn:E; [|eauto|exfalso; eapply String_fuel; eauto].
  destruct (String_inv _ _ _ E) as (s & cs & HI & HS & _). exfalso. exact (H _ _ _ HI HS).
Qed.
Print Assumptions C04_string_closed.
Example C04_closed_ex : forall src cs rest, items DQUOTE src cs -> $"abc" <> src ++ DQUOTE :: rest.
Proof.
  intros src cs rest _ E. assert (H : In DQUOTE ($"abc")) by (rewrite E; apply in_or_app; right; left; reflexivity).
  vm_compute in H. intuition discriminate.
Qed.

(** Refuted for all bytes: the one-character literal with byte 0xE9 becomes the
    two bytes 0xC3 0xA9. *)
Theorem C04_string_bytes_refuted : exists src cs,
  items DQUOTE src cs /\
  forall n rest fl c v s', 
    primary (S n) (mkSt (mkLexer (DQUOTE :: src ++ DQUOTE :: rest) fl) c) = Ok (v, false) s' ->
    c_mglobals (Builder.cs s') <> c_mglobals c ++
       [mkGlob (".str." ++ dec (c_stringID c)) (GBytes (cs ++ [NUL])) true].
Proof.
  exists [byte_of 233], [byte_of 233].
  assert (HI : items DQUOTE [byte_of 233] [byte_of 233]).
  { apply (items_cons DQUOTE [byte_of 233] (byte_of 233) [] []); [|constructor].
    constructor; discriminate. }
  split; [exact HI|]. intros n rest fl c v s' E.
  destruct (C04_string_object n _ _ rest fl c HI) as (v2 & c' & E2 & G & _).
  rewrite E2 in E. injection E as _ <-. cbn [Builder.cs]. rewrite G.
  intros H. apply app_inv_head in H. discriminate H.
Qed.
Print Assumptions C04_string_bytes_refuted.

Example C04_ex : items DQUOTE $"hi*n" ($"hi" ++ [LF]) /\ Forall (fun x => code x < 128) ($"hi" ++ [LF]).
Proof.
  split.
  - apply (items_cons DQUOTE ["h"%char]); [constructor; discriminate|].
    apply (items_cons DQUOTE ["i"%char]); [constructor; discriminate|].
    apply (items_cons DQUOTE ["*"%char; "n"%char] LF [] []); [|constructor].
    constructor. cbn. tauto.
  - repeat constructor.
Qed.

(** ** C05 layout *)

(** All of a maximal layout is skipped and nothing else (a read failure right
    at its end, or after a final '/', is reported instead). *)
Theorem C05_layout_skipped : forall lay rest fl,
  layout lay -> token_start rest ->
  (fl = true -> rest <> [] /\ rest <> ["/"%char]) ->
  Whitespace (mkLexer (lay ++ rest) fl) = Ok tt (mkLexer rest fl).
Proof.
  intros lay rest fl HL HT HF. apply Whitespace_skip; auto.
  unfold end_ok. destruct fl; auto.
Qed.
Print Assumptions C05_layout_skipped.

(** Whenever it succeeds, what it skipped is layout and what is left starts a
    token. *)
Theorem C05_only_layout_skipped : forall s fl l,
  Whitespace (mkLexer s fl) = Ok tt l ->
  exists lay, s = lay ++ l_in l /\ layout lay /\ token_start (l_in l) /\ l_fail l = fl.
Proof.
  intros s fl l H. destruct (Whitespace_spec s fl); try discriminate.
  injection H as <-. exists lay. auto.
Qed.
Print Assumptions C05_only_layout_skipped.

(** A comment that is not closed is an error. *)
Theorem C05_unclosed_comment : forall lay t fl,
  layout lay -> no_close t ->
  exists e, Whitespace (mkLexer (lay ++ "/"%char :: "*"%char :: t) fl) = Err e.
Proof.
  intros lay t fl HL HC. destruct (Whitespace_spec (lay ++ "/"%char :: "*"%char :: t) fl) as [lay' rest E HL' HT HE| |]; eauto.
  exfalso. revert lay' rest E HL' HT HE.
  induction HL as [|c r W HL IH|t' r Ht HL IH]; intros lay' rest E HL' HT HE.
  - cbn [app] in E. destruct HL' as [|c r W HL'|t' r Ht HL']; cbn in E.
    + subst rest. destruct HT as [_ HT]. eapply HT; reflexivity.
    + injection E as <- _. exact (white_slash W).
    + injection E as E. rewrite <- app_assoc in E. cbn in E. subst t.
      eapply HC; reflexivity.
  - cbn in E. destruct HL' as [|c' r' W' HL'|t' r' Ht HL']; cbn in E.
    + subst rest. destruct HT as [HT _]. contradiction.
    + injection E as _ E. eapply IH; eauto.
    + injection E as -> _. exact (white_slash W).
  - cbn in E. destruct HL' as [|c' r' W' HL'|t2 r' Ht2 HL']; cbn in E.
    + subst rest. destruct HT as [_ HT]. eapply HT; reflexivity.
    + injection E as <- _. exact (white_slash W').
    + injection E as E. rewrite <- !app_assoc in E. cbn in E.
      pose proof (comment_loop_skip t' (r ++ "/"%char :: "*"%char :: t) Ht) as C1.
      pose proof (comment_loop_skip t2 (r' ++ rest) Ht2) as C2.
      rewrite E in C1. rewrite C1 in C2. injection C2 as C2. eapply IH; eauto.
Qed.
Print Assumptions C05_unclosed_comment.

Example C05_ex : layout $" /*/ ** x ***/ " /\ token_start $"/ y"
  /\ Whitespace (mkLexer $" /*/ ** x ***/ / y" false) = Ok tt (mkLexer $"/ y" false)
  /\ no_close $"/ never * / closed *".
Proof.
  split; [|split; [|split; [reflexivity|]]].
  - apply lay_white; [cbn; tauto|].
    apply (lay_comment $"/ ** x **" [" "%char]).
    + pose proof (comment_loop_inv $"/ ** x **") as H. exact H.
    + apply lay_white; [cbn; tauto|constructor].
  - split; [rewrite <- IsSpace_white; discriminate|]. intros _ r' E. discriminate.
  - pose proof (comment_loop_inv $"/ never * / closed *") as H. exact H.
Qed.

(** ** C06 identifiers *)

(** After layout, the maximal run of identifier characters is consumed, and
    nothing else; its name is the run (re-encoded in UTF-8, so equal to it for
    ASCII). *)
Theorem C06_identifier_maximal : forall lay id rest fl,
  layout lay -> id <> [] -> Forall ident_char id -> not_starting ident_char rest ->
  (rest = [] -> fl = false) ->
  Identifier (mkLexer (lay ++ id ++ rest) fl) = Ok (go_string id) (mkLexer rest fl)
  /\ (Forall (fun c => code c < 128) id -> go_string id = string_of_list_ascii id).
Proof.
  intros lay id rest fl HL HN HI HR HF. split; [|apply go_string_seven].
  apply Identifier_ok; auto; [congruence|].
  destruct id as [|c id]; [congruence|]. inversion HI; subst.
  right. split; [discriminate|]. cbn. intros E. injection E as -> _.
  eapply ident_not_slash; eauto.
Qed.
Print Assumptions C06_identifier_maximal.

Theorem C06_identifier_inv : forall s fl name l,
  Identifier (mkLexer s fl) = Ok name l ->
  exists lay id, s = lay ++ id ++ l_in l /\ layout lay /\ Forall ident_char id
    /\ not_starting ident_char (l_in l) /\ name = go_string id /\ l_fail l = fl.
Proof.
  intros s fl name l H. apply Identifier_inv in H.
  destruct H as (lay & id & H). exists lay, id. cbn in H. tauto.
Qed.
Print Assumptions C06_identifier_inv.

Example C06_ex : Identifier (mkLexer $" /* c */ a_1b+c" false) = Ok "a_1b"%string (mkLexer $"+c" false).
Proof. reflexivity. Qed.

(** ** C07 push-back *)

(** A history of calls, and its meaning on one character sequence: the
    characters returned (or the error at the end). *)
Inductive op : Type := Rd | Un (c : ascii).

Fixpoint stream_run (e : goerr) (ops : list op) (s : list ascii) : list (goerr + ascii) :=
  match ops with
  | [] => []
  | Un c :: r => stream_run e r (c :: s)
  | Rd :: r => match s with
               | [] => inl e :: stream_run e r []
               | c :: s' => inr c :: stream_run e r s'
               end
  end.

(** The same history on the buffer and reader of the code. *)
Fixpoint buf_run (ops : list op) (b : buflexer) : list (goerr + ascii) :=
  match ops with
  | [] => []
  | Un c :: r => buf_run r (UnreadChar_buf c b)
  | Rd :: r => let (x, b') := ReadChar_buf b in x :: buf_run r b'
  end.

(** Every history over a file with contents [s] (whose end gives [e]) is the
    same as on the character sequence. *)
Theorem C07_pushback_stream : forall ops s e,
  buf_run ops (mkBuf [] (map RByte s) e) = stream_run e ops s.
Proof.
  intros ops s e.
  assert (G : forall ops b, plain b -> buf_run ops b = stream_run (bl_end b) ops (view b)).
  { clear. induction ops as [|[|c] ops IH]; intros b HP; cbn [buf_run stream_run]; auto.
    - pose proof (read_buf_view b HP) as H. destruct (view b) as [|c r] eqn:EV.
      + rewrite H. f_equal. rewrite IH by auto. rewrite EV. reflexivity.
      + destruct H as (b' & -> & <- & HP' & <-). f_equal. apply IH; auto.
    - destruct (unread_buf_view c b HP) as (<- & HP' & <-). apply IH; auto. }
  rewrite G.
  - cbn [bl_end]. f_equal. unfold view. cbn. induction s; cbn; congruence.
  - unfold plain. cbn. apply Forall_forall. intros o Ho. apply in_map_iff in Ho.
    destruct Ho as (c & <- & _). exists c. reflexivity.
Qed.
Print Assumptions C07_pushback_stream.

(** The lexer model used everywhere else is that character sequence. *)
Theorem C07_lexer_model : forall b (fl : bool), plain b -> bl_end b = (if fl then IOErr else EOF) ->
  (forall c, UnreadChar c (mkLexer (view b) fl) = Ok tt (mkLexer (view (UnreadChar_buf c b)) fl)) /\
  tryRead (mkLexer (view b) fl)
  = Ok (fst (ReadChar_buf b)) (mkLexer (view (snd (ReadChar_buf b))) fl).
Proof.
  intros b fl HP HE. split.
  - intros c. destruct (unread_buf_view c b HP) as (E & _ & _). rewrite E. reflexivity.
  - pose proof (read_buf_view b HP) as H. unfold tryRead. cbn [l_in l_fail].
    destruct (view b) as [|c r] eqn:EV.
    + rewrite H. cbn [fst snd]. rewrite EV, HE. reflexivity.
    + destruct H as (b' & -> & <- & _ & _). reflexivity.
Qed.
Print Assumptions C07_lexer_model.

(** Refuted for readers that return the last byte together with io.EOF, as the
    contract of io.Reader allows: the byte is lost. *)
Theorem C07_data_with_eof_refuted : exists c,
  buf_run [Rd; Rd] (mkBuf [] [RByteErr c EOF] EOF) <> stream_run EOF [Rd; Rd] [c].
Proof. exists "x"%char. discriminate. Qed.
Print Assumptions C07_data_with_eof_refuted.

Example C07_ex :
  buf_run [Rd; Rd; Un "b"; Un "a"; Rd; Rd; Rd; Rd] (mkBuf [] (map RByte $"abc") EOF)
  = [inr "a"; inr "b"; inr "a"; inr "b"; inr "c"; inl EOF]%char.
Proof. reflexivity. Qed.
