(** * DiagFacts: every error message is one of SpecDiag.v *)
From Coq Require Import List Ascii String ZArith NArith Lia Bool.
From Verif Require Import Base Lexer IR Builder Expr Stmt Decl Totality SpecDiag.
Import ListNotations.
Open Scope Z_scope.
Open Scope m_scope.
Open Scope list_scope.

(** ** The builder *)
Definition quiet {A} (m : C A) : Prop := forall s, exists a c, m s = Ok a (mkSt (lx s) c).
Lemma q_bind {A B} (m : C A) (f : A -> C B) : quiet m -> (forall a, quiet (f a)) -> quiet (bind m f).
Proof. intros H K s. unfold bind. destruct (H s) as (a & c & ->). destruct (K a (mkSt (lx s) c)) as (b & c2 & ->). exists b, c2. reflexivity. Qed.
Lemma q_ret {A} (a : A) : quiet (ret a). Proof. intros [l c]. exists a, c. reflexivity. Qed.
Lemma q_get : quiet get. Proof. intros [l c]. exists c, c. reflexivity. Qed.
Lemma q_modify f : quiet (modify f). Proof. intros s. eexists _, _. reflexivity. Qed.
Lemma q_fresh : quiet fresh. Proof. intros s. eexists _, _. reflexivity. Qed.
Lemma q_NewBlock n : quiet (NewBlock n). Proof. intros s. eexists _, _. reflexivity. Qed.
Lemma q_nextLabelID : quiet nextLabelID. Proof. intros s. eexists _, _. reflexivity. Qed.
Ltac quiet_step :=
  lazymatch goal with
  | |- quiet (ret _) => apply q_ret
  | |- quiet get => apply q_get
  | |- quiet (modify _) => apply q_modify
  | |- quiet (bind _ _) => apply q_bind; [|intros ?]
  | |- quiet (let _ := _ in _) => cbv zeta
  | |- quiet (match ?x with _ => _ end) => destruct x
  | |- quiet ?m => let h := eval cbv beta in m in
      match h with
      | emit _ => unfold emit | setTerm _ => unfold setTerm | SetInsertPoint _ => unfold SetInsertPoint
      | GetInsertBlock => unfold GetInsertBlock | bind_local _ _ => unfold bind_local
      | getOrCreateFunc _ => unfold getOrCreateFunc | ClearTopLevelContext => unfold ClearTopLevelContext
      | emitR _ => unfold emitR | rval _ _ => unfold rval | cmpz _ _ _ => unfold cmpz | applyCop _ _ _ => unfold applyCop
      | doCall _ _ => unfold doCall | incDec _ _ => unfold incDec | GetAddress _ => unfold GetAddress
      | GetOrCreateLabel _ => unfold GetOrCreateLabel | termIsNil => unfold termIsNil | brIfOpen _ => unfold brIfOpen
      | DeclareGlobal _ _ => unfold DeclareGlobal | DeclareGlobalWithMultipleValues _ _ => unfold DeclareGlobalWithMultipleValues
      | DeclareGlobalArray _ _ _ => unfold DeclareGlobalArray | DeclareFunction _ _ => unfold DeclareFunction
      | GetOrDeclareFunction _ => unfold GetOrDeclareFunction | EndFunction => unfold EndFunction
      | DeclareLocal _ => unfold DeclareLocal | DeclareLocalArray _ _ => unfold DeclareLocalArray
      | CreateStringConstant _ => unfold CreateStringConstant | StartFunction _ _ => unfold StartFunction
      | fresh => apply q_fresh | NewBlock _ => apply q_NewBlock | nextLabelID => apply q_nextLabelID
      end
  end.
Lemma q_va va ps : quiet (va_params va ps).
Proof. revert va. induction ps as [|p ps IH]; intros va; cbn [va_params]; repeat (first [apply IH | quiet_step]). Qed.
Lemma q_switchCases id vals : quiet (switchCases id vals).
Proof. induction vals as [|v r IH]; cbn [switchCases]; repeat (first [exact IH | quiet_step]). Qed.
Lemma q_declareAutos ds : quiet (declareAutos ds).
Proof. induction ds as [|[x z] r IH]; cbn [declareAutos]; repeat (first [exact IH | quiet_step]). Qed.
Ltac is_quiet := solve [repeat (first [apply q_va | apply q_switchCases | apply q_declareAutos | quiet_step])].


Section text.
Variable s0 : list ascii.
Notation qc := (quotable s0).
Notation qn := (quotable_name s0).
(** whether the reader fails at the end *)
Variable fl : bool.
Definition read_end : goerr := if fl then IOErr else EOF.
Definition okl (l : lexer) : Prop := l_fail l = fl /\ Forall qc (l_in l).
Definition oks (s : st) : Prop := okl (lx s).

Definition errs (e : goerr) : Prop := match e with Msg t => diagnostic s0 t | _ => e = read_end end.
(** Errors of [m] are diagnostics, and its results are quotable. *)
Definition tells {S A} (ok : S -> Prop) (m : M S A) (Q : A -> Prop) : Prop :=
  forall s, ok s -> match m s with
                    | Ok a t => ok t /\ Q a
                    | Err e => errs e
                    | Fuel => True
                    end.
Notation tl := (tells okl).
Notation tc := (tells oks).
Definition anyQ {A} (a : A) : Prop := True.
Definition qr (r : goerr + ascii) : Prop := match r with inl e => e = read_end | inr c => qc c end.

Lemma t_bind {S A B} ok (m : M S A) (f : A -> M S B) Q R :
  tells ok m Q -> (forall a, Q a -> tells ok (f a) R) -> tells ok (bind m f) R.
Proof.
  intros H K s O. unfold bind. specialize (H s O). destruct (m s) as [a t|e|]; auto.
  destruct H as (O2 & HQ). exact (K a HQ t O2).
Qed.
Lemma t_ret {S A} ok (a : A) (Q : A -> Prop) : Q a -> @tells S A ok (ret a) Q.
Proof. intros H s O. split; auto. Qed.
Lemma t_errorf {S A} ok e Q : diagnostic s0 e -> @tells S A ok (errorf e) Q.
Proof. intros H s O. exact H. Qed.
Lemma t_fail {S A} ok e Q : e = read_end -> @tells S A ok (fail e) Q.
Proof. intros H s O. cbn. subst e. unfold errs, read_end. destruct fl; reflexivity. Qed.
Lemma t_fuel {S A} ok Q : @tells S A ok out_of_fuel Q.
Proof. intros s O. exact Logic.I. Qed.
Lemma t_weak {S A} ok (m : M S A) (Q R : A -> Prop) : tells ok m Q -> (forall a, Q a -> R a) -> tells ok m R.
Proof. intros H K s O. specialize (H s O). destruct (m s) as [a t|e|]; auto. destruct H. auto. Qed.
Lemma t_any {S A} ok (m : M S A) Q : tells ok m Q -> tells ok m anyQ.
Proof. intros H. eapply t_weak; [exact H|]. intros; exact Logic.I. Qed.
Lemma t_lift {A} (m : L A) Q : tl m Q -> tc (lift m) Q.
Proof. intros H s O. unfold lift. specialize (H (lx s) O). destruct (m (lx s)); auto. Qed.
Lemma t_keeps {A} (m : C A) : keeps m -> (forall s e, m s <> Err e) -> tc m anyQ.
Proof.
  intros H N s O. specialize (H s). specialize (N s). destruct (m s) as [a t|e|]; auto.
  - split; [|exact Logic.I]. unfold oks. rewrite H. exact O.
  - destruct (N e). reflexivity.
Qed.

(** ** The lexer *)
Lemma t_tryRead : tl tryRead qr.
Proof.
  intros [i f] (OF & O). unfold tryRead, okl in *. cbn in OF, O |- *. destruct i as [|c r].
  - split; auto. cbn. unfold end_err, read_end. cbn. rewrite OF. reflexivity.
  - inversion O; subst. split; auto.
Qed.
Lemma t_UnreadChar c : qc c -> tl (UnreadChar c) anyQ.
Proof. intros H [i f] (OF & O). split; [|exact Logic.I]. split; [exact OF|]. constructor; auto. Qed.
Lemma comment_loop_suffix n s r : (List.length s <= n)%nat -> comment_loop s = Some r -> exists p, s = p ++ r.
Proof.
  revert s r; induction n as [|n IH]; intros [|c t] r N H; cbn in *; try discriminate; try lia.
  destruct (Ascii.eqb c "*").
  - destruct t as [|c2 t2]; [discriminate|]. destruct (Ascii.eqb c2 "/").
    + injection H as <-. exists [c; c2]. reflexivity.
    + apply IH in H as (p & ->); [|lia]. exists (c :: p). reflexivity.
  - apply IH in H as (p & ->); [|lia]. exists (c :: p). reflexivity.
Qed.
Lemma t_Comment : tl Comment anyQ.
Proof.
  intros [i f] (OF & O). unfold Comment, okl in *. cbn in OF, O |- *. destruct (comment_loop i) as [r|] eqn:E.
  - split; [|exact Logic.I]. apply (comment_loop_suffix _ i r (le_n _)) in E as (p & ->).
    apply Forall_app in O as (_ & O). split; [exact OF|exact O].
  - destruct f; [|apply dg_plain; left; reflexivity]. cbn. unfold read_end. rewrite <- OF. reflexivity.
Qed.
Lemma t_ws_loop n : tl (whitespace_loop n) anyQ.
Proof.
  induction n as [|n IH]; [apply t_fuel|]. cbn [whitespace_loop].
  apply (t_bind _ _ _ qr); [apply t_tryRead|]. intros [e|c] H.
  - destruct e; [apply t_ret; exact Logic.I|apply t_fail; exact H|apply t_fail; exact H].
  - destruct (IsSpace c); [exact IH|]. destruct (Ascii.eqb c "/"); [|apply t_UnreadChar; exact H].
    apply (t_bind _ _ _ qr); [apply t_tryRead|]. intros [e|c2] H2.
    + destruct e; [apply t_UnreadChar; exact H|apply t_fail; exact H2|apply t_fail; exact H2].
    + destruct (Ascii.eqb c2 "*").
      * eapply t_bind; [apply t_Comment|]. intros _ _. exact IH.
      * eapply t_bind; [apply t_UnreadChar; exact H2|]. intros _ _. apply t_UnreadChar; exact H.
Qed.
Lemma t_Whitespace : tl Whitespace anyQ.
Proof. intros l O. exact (t_ws_loop _ l O). Qed.
Lemma span_app s : fst (ident_span s) ++ snd (ident_span s) = s /\ Forall (fun c => IsIdent c = true) (fst (ident_span s)).
Proof.
  induction s as [|c r (IH1 & IH2)]; [split; auto; constructor|]. cbn. destruct (IsIdent c) eqn:E; [|split; auto; constructor].
  destruct (ident_span r) as (a, b). cbn in *. split; [congruence|]. constructor; auto.
Qed.
Lemma utf8_quot c : qc c -> IsIdent c = true ->
  Forall (fun c => qc c /\ (IsIdent c = true \/ 128 <= code c)) (utf8 c).
Proof.
  intros Q H. unfold utf8. destruct (code c <? 128) eqn:E.
  - constructor; [|constructor]. split; auto.
  - assert (R : 0 <= code c < 256).
    { unfold code. destruct c as [[] [] [] [] [] [] [] []]; cbn; lia. }
    apply Z.ltb_ge in E.
    assert (B : forall z, 128 <= z < 256 -> 128 <= code (byte_of z)).
    { intros z Z1. unfold code, byte_of. rewrite Z.mod_small by lia. rewrite N_ascii_embedding by lia. lia. }
    assert (D1 : 128 <= 192 + code c / 64 < 256) by (pose proof (Z.div_lt_upper_bound (code c) 64 4); pose proof (Z.div_pos (code c) 64); lia).
    assert (D2 : 128 <= 128 + code c mod 64 < 256) by (pose proof (Z.mod_pos_bound (code c) 64); lia).
    repeat (constructor; [split; [right|right]; apply B; assumption|]). constructor.
Qed.
Lemma concat_empty_cons (x : string) l : String.concat "" (x :: l) = (x ++ String.concat "" l)%string.
Proof. destruct l; [cbn; induction x as [|a x IH]; [reflexivity|cbn; congruence]|reflexivity]. Qed.
Lemma string_app_of l l' : string_of_list_ascii (l ++ l') = (string_of_list_ascii l ++ string_of_list_ascii l')%string.
Proof. induction l as [|c l IH]; [reflexivity|cbn; congruence]. Qed.
Lemma go_string_concat a : go_string a = String.concat "" (map fmt_c a).
Proof.
  unfold go_string. induction a as [|c a IH]; [reflexivity|]. cbn [map flat_map]. rewrite concat_empty_cons, string_app_of, IH. reflexivity.
Qed.
Lemma go_string_nonempty c a : go_string (c :: a) <> EmptyString.
Proof. unfold go_string. cbn [flat_map]. unfold utf8. destruct (code c <? 128); discriminate. Qed.
Lemma qn_nonempty x : qn x -> x <> EmptyString.
Proof. intros (rs & N & -> & _). destruct rs as [|c r]; [destruct N; reflexivity|]. rewrite <- go_string_concat. apply go_string_nonempty. Qed.
Lemma go_string_quot a : Forall qc a -> Forall (fun c => IsIdent c = true) a -> go_string a = EmptyString \/ qn (go_string a).
Proof.
  intros H1 H2. destruct a as [|c a]; [left; reflexivity|]. right. exists (c :: a). split; [discriminate|]. split; [apply go_string_concat|].
  rewrite Forall_forall in *. intros d Hd. split; auto.
Qed.
Definition name_ok (x : string) : Prop := x = EmptyString \/ qn x.
Lemma t_Identifier : tl Identifier name_ok.
Proof.
  unfold Identifier. eapply t_bind; [apply t_Whitespace|]. intros _ _ [i f] (OF & O). unfold okl in *. cbn [l_in l_fail] in *.
  destruct (span_app i) as (E & F). destruct (ident_span i) as (a, b). cbn [fst snd] in *. rewrite <- E in O.
  apply Forall_app in O as (O1 & O2).
  destruct b as [|c b]; [destruct f; [cbn; unfold read_end; rewrite <- OF; reflexivity|]|]; (split; [split; [exact OF|exact O2]|apply go_string_quot; auto]).
Qed.
Lemma number_suffix base s : forall z, exists p, s = p ++ snd (number_loop base z s).
Proof.
  induction s as [|c r IH]; intros z; [exists []; reflexivity|]. cbn. destruct (IsDigit c); [|exists []; reflexivity].
  destruct (IH (wrap64 (z * base + (code c - 48)))) as (p & E). exists (c :: p). cbn. congruence.
Qed.
Lemma t_Number : tl Number anyQ.
Proof.
  unfold Number. eapply t_bind; [apply t_Whitespace|]. intros _ _ [i f] (OF & O). unfold okl in *. cbn [l_in l_fail] in *.
  destruct i as [|c i]; [unfold end_err, errs, read_end; cbn; rewrite <- OF; destruct f; reflexivity|].
  pose proof (number_suffix (if Ascii.eqb c "0" then 8 else 10) (c :: i) 0) as (p & E).
  destruct (number_loop _ 0 (c :: i)) as (z, b). cbn [snd] in E. rewrite E in O. apply Forall_app in O as (_ & O).
  destruct b; [destruct f; [cbn; unfold read_end; rewrite <- OF; reflexivity|]|]; (split; [split; [exact OF|exact O]|exact Logic.I]).
Qed.

Ltac t_err :=
  first [ solve [apply dg_plain; cbn; tauto] | solve [apply dg_expected; cbn; tauto]
        | solve [apply dg_unexpected; [cbn; tauto|assumption]]
        | solve [apply dg_escape; assumption] | solve [apply dg_operator; assumption]
        | solve [apply dg_operator_end] | solve [apply dg_plus_end]
        | solve [apply dg_again; assumption] | solve [apply dg_undefined; assumption] ].

Lemma t_Escape : tl Escape anyQ.
Proof.
  unfold Escape. apply (t_bind _ _ _ qr); [apply t_tryRead|]. intros [e|c] H; [apply t_fail; exact H|].
  repeat match goal with |- tells _ (if ?b then _ else _) _ => destruct b end; try (apply t_ret; exact Logic.I).
  apply t_errorf. t_err.
Qed.
Lemma t_character_loop i : forall v, tl (character_loop i v) anyQ.
Proof.
  induction i as [|i IH]; intros v; cbn [character_loop]; (apply (t_bind _ _ _ qr); [apply t_tryRead|]); intros [e|c] H.
  - apply t_errorf. t_err.
  - destruct (Ascii.eqb c QUOTE); [apply t_ret; exact Logic.I|apply t_errorf; t_err].
  - apply t_fail; exact H.
  - destruct (Ascii.eqb c QUOTE); [apply t_ret; exact Logic.I|].
    apply (t_bind _ _ _ anyQ); [destruct (Ascii.eqb c "*"); [apply t_Escape|apply t_ret; exact Logic.I]|]. intros; apply IH.
Qed.
Lemma t_Character : tl Character anyQ. Proof. apply t_character_loop. Qed.
Lemma t_string_loop n : forall acc, tl (string_loop n acc) anyQ.
Proof.
  induction n as [|n IH]; intros acc; [apply t_fuel|]. cbn [string_loop].
  apply (t_bind _ _ _ qr); [apply t_tryRead|]. intros [e|c] H.
  - destruct e; [apply t_errorf; t_err|apply t_fail; exact H|apply t_fail; exact H].
  - destruct (Ascii.eqb c DQUOTE); [apply t_ret; exact Logic.I|].
    apply (t_bind _ _ _ anyQ); [destruct (Ascii.eqb c "*"); [apply t_Escape|apply t_ret; exact Logic.I]|]. intros; apply IH.
Qed.
Lemma t_String : tl String_ anyQ. Proof. intros l O. exact (t_string_loop _ _ l O). Qed.
Lemma t_ExpectChar c m : In m expectations -> tl (ExpectChar c m) anyQ.
Proof.
  intros H. unfold ExpectChar. apply (t_bind _ _ _ qr); [apply t_tryRead|]. intros [e|d] Hd.
  - destruct e; [apply t_errorf; apply dg_expected; exact H|apply t_fail; exact Hd|apply t_fail; exact Hd].
  - destruct (Ascii.eqb d c); [apply t_ret; exact Logic.I|]. apply t_errorf. apply dg_got; auto.
Qed.

(** ** The parser *)
Lemma t_quiet {A} (m : C A) : quiet m -> tc m anyQ.
Proof. intros H s O. destruct (H s) as (a & c & ->). split; [exact O|exact Logic.I]. Qed.
Lemma t_rc : tc rc qr. Proof. apply t_lift, t_tryRead. Qed.
Lemma t_readChar : tc readChar qc.
Proof. unfold readChar. apply (t_bind _ _ _ qr); [apply t_rc|]. intros [e|c] H; [apply t_fail; exact H|apply t_ret; exact H]. Qed.
Lemma t_unread c : qc c -> tc (unread c) anyQ. Proof. intros H. apply t_lift, t_UnreadChar, H. Qed.
Lemma t_unreadOk r : qr r -> tc (unreadOk r) anyQ.
Proof. destruct r as [e|c]; intros H; [apply t_ret; exact Logic.I|apply t_unread; exact H]. Qed.
Lemma t_get : tc get anyQ. Proof. apply t_quiet. apply q_get. Qed.
Lemma t_identOr m : In m plain_messages -> tc (identOr m) qn.
Proof.
  intros H s O. unfold identOr. pose proof (t_lift _ _ t_Identifier s O) as T.
  destruct (lift Identifier s) as [a t|e|]; [|apply dg_plain; exact H|exact Logic.I].
  destruct T as (O2 & [->|T]); [apply dg_plain; exact H|].
  destruct a; [apply dg_plain; exact H|]. split; auto.
Qed.
Lemma t_liftOr {A} m (l : L A) : In m plain_messages -> tl l anyQ -> tc (liftOr m l) anyQ.
Proof.
  intros H K s O. unfold liftOr. pose proof (t_lift _ _ K s O) as T.
  destruct (lift l s) as [a t|e|]; [exact T|apply dg_plain; exact H|exact Logic.I].
Qed.
Lemma qc_name x : qn x -> Forall qc (list_ascii_of_string x).
Proof.
  intros (rs & _ & -> & H). rewrite <- go_string_concat. unfold go_string. rewrite list_ascii_of_string_of_list_ascii.
  induction H as [|c rs (Q & K) _ IH]; [constructor|]. cbn [flat_map]. apply Forall_app. split; [|exact IH].
  eapply Forall_impl; [|exact (utf8_quot c Q K)]. intros d (E & _). exact E.
Qed.
Lemma t_unreadAll l : Forall qc l -> tc (unreadAll l) anyQ.
Proof.
  induction 1; cbn [unreadAll]; [apply t_ret; exact Logic.I|].
  eapply t_bind; [apply t_unread; assumption|]. intros _ _. assumption.
Qed.
Lemma qc_const c : qc c -> forall d, Ascii.eqb c d = true -> qc d.
Proof. intros H d E. apply Ascii.eqb_eq in E. subst. exact H. Qed.
Lemma isCh_q r d : qr r -> isCh r d = true -> qc d.
Proof. destruct r as [e|c]; cbn; intros H E; [discriminate|]. eapply qc_const; eauto. Qed.

Lemma t_unread_ident {A} ch (k : string -> C A) R : IsLetter ch = true -> qc ch ->
  (forall name, qn name -> tc (k name) R) -> tc (unread ch ;;; name <- lift Identifier ;; k name) R.
Proof.
  intros HL Q K s O.
  assert (HS : IsSpace ch = false /\ Ascii.eqb ch "/" = false /\ IsIdent ch = true).
  { clear - HL. revert HL. destruct ch as [[] [] [] [] [] [] [] []]; vm_compute; intros H; try discriminate H; auto. }
  destruct HS as (H1 & H2 & H3).
  set (s1 := mkSt (mkLexer (ch :: l_in (lx s)) (l_fail (lx s))) (cs s)).
  assert (O1 : oks s1) by (destruct O; split; [assumption|constructor; assumption]).
  change (match (name <- lift Identifier ;; k name) s1 with Ok a t => oks t /\ R a | Err e => errs e | Fuel => True end).
  unfold bind. pose proof (t_lift _ _ t_Identifier s1 O1) as T.
  assert (E : match lift Identifier s1 with Ok a _ => a <> EmptyString | _ => True end).
  { subst s1. unfold lift, Identifier, bind, Whitespace. cbn [lx l_in l_fail List.length whitespace_loop].
    unfold bind, tryRead. cbn [l_in l_fail]. rewrite H1, H2. unfold UnreadChar. cbn [l_in l_fail ident_span].
    rewrite H3. destruct (ident_span (l_in (lx s))) as (a, b).
    assert (N : go_string (ch :: a) <> EmptyString) by (unfold go_string; cbn [flat_map]; unfold utf8; destruct (code ch <? 128); discriminate).
    destruct b; [destruct (l_fail (lx s))|]; try exact N. exact Logic.I. }
  destruct (lift Identifier s1) as [a t|e|]; [|exact T|exact Logic.I].
  destruct T as (O2 & [->|T]); [destruct E; reflexivity|]. exact (K a T t O2).
Qed.

Lemma t_tryEqEq : tc tryEqEq anyQ.
Proof.
  unfold tryEqEq. apply (t_bind _ _ _ qr); [apply t_rc|]. intros r2 H2. destruct (isCh r2 "=") eqn:E2.
  - apply (t_bind _ _ _ qr); [apply t_rc|]. intros [e|c] H; [apply t_ret; exact Logic.I|].
    destruct (Ascii.eqb c "=").
    + eapply t_bind; [apply t_unread; exact H|]. intros _ _. eapply t_bind; [apply t_unread; exact (isCh_q _ _ H2 E2)|].
      intros _ _. apply t_ret; exact Logic.I.
    + eapply t_bind; [apply t_unread; exact H|]. intros _ _. apply t_ret; exact Logic.I.
  - eapply t_bind; [apply t_unreadOk; exact H2|]. intros _ _. apply t_ret; exact Logic.I.
Qed.
Lemma t_tryEqEqEq r2 : qr r2 -> tc (tryEqEqEq r2) anyQ.
Proof.
  intros H2. unfold tryEqEqEq. destruct (isCh r2 "=") eqn:E2; [|apply t_ret; exact Logic.I].
  apply (t_bind _ _ _ qr); [apply t_rc|]. intros r3 H3. destruct (isCh r3 "="); [apply t_ret; exact Logic.I|].
  eapply t_bind; [apply t_unreadOk; exact H3|]. intros _ _. eapply t_bind; [apply t_unread; exact (isCh_q _ _ H2 E2)|].
  intros _ _. apply t_ret; exact Logic.I.
Qed.

(** One step of a parser function, by the form of the goal. *)
Ltac t_prim :=
  lazymatch goal with
  | |- tells _ rc _ => apply t_rc
  | |- tells _ readChar _ => apply t_readChar
  | |- tells _ (unread _) _ => apply t_unread; assumption
  | |- tells _ (unreadOk _) _ => apply t_unreadOk; assumption
  | |- tells _ get _ => apply t_get
  | |- tells _ tryEqEq _ => apply t_tryEqEq
  | |- tells _ (tryEqEqEq _) _ => apply t_tryEqEqEq; assumption
  | |- tells _ (lift Whitespace) _ => apply t_lift, t_Whitespace
  | |- tells _ (lift Number) _ => apply t_lift, t_Number
  | |- tells _ (lift Character) _ => apply t_lift, t_Character
  | |- tells _ (lift String_) _ => apply t_lift, t_String
  | |- tells _ (lift Identifier) _ => apply t_lift, t_Identifier
  | |- tells _ (lift (ExpectChar _ _)) _ => apply t_lift, t_ExpectChar; cbn; tauto
  | |- tells _ (identOr _) _ => apply t_identOr; cbn; tauto
  | |- tells _ (liftOr _ Number) _ => apply t_liftOr; [cbn; tauto|apply t_Number]
  | |- tells _ (liftOr _ Character) _ => apply t_liftOr; [cbn; tauto|apply t_Character]
  | |- tells _ (unreadAll _) _ => apply t_unreadAll
  | |- _ => apply t_quiet; is_quiet
  end.
Ltac t_rec := fail.
Ltac t_step :=
  lazymatch goal with
  | |- tells _ (ret _) _ => apply t_ret; try exact Logic.I
  | |- tells _ (errorf _) _ => first [t_rec | apply t_errorf; try t_err]
  | |- tells _ (fail _) _ => apply t_fail; assumption
  | |- tells _ out_of_fuel _ => apply t_fuel
  | |- tells _ (let _ := _ in _) _ => cbv zeta
  | |- tells _ (bind (unread ?c) (fun _ => bind (lift Identifier) _)) _ =>
      apply t_unread_ident; [assumption|assumption|intros ? ?]
  | |- tells _ (bind (if ?b then _ else _) _) _ =>
      apply (t_bind _ _ _ anyQ); [|intros ? _]
  | |- tells _ (bind (match ?b with _ => _ end) _) _ =>
      apply (t_bind _ _ _ anyQ); [|intros ? _]
  | |- tells _ (bind (bind _ _) _) _ =>
      apply (t_bind _ _ _ anyQ); [|intros ? _]
  | |- tells _ (bind _ _) _ => eapply t_bind; [first [t_rec | t_prim]|intros ? ?]
  | |- tells _ (if ?b then _ else _) _ => destruct b eqn:?
  | |- tells _ (match ?r with inl _ => _ | inr _ => _ end) _ =>
      match goal with H : qr r |- _ => destruct r as [[]|] end
  | |- tells _ (match ?x with _ => _ end) _ => destruct x
  | |- _ => first [t_rec | eapply t_any; first [t_rec | t_prim]]
  end.

Lemma t_compoundOp r2 : qr r2 -> tc (compoundOp r2) anyQ.
Proof. intros H. unfold compoundOp. repeat t_step. Qed.
Lemma t_primaryIdent name : qn name -> tc (primaryIdent name) anyQ.
Proof.
  intros H. unfold primaryIdent. do 4 t_step.
  - intros s O. unfold bind at 1, get at 1. destruct (findFuncByName (cs s) name); [split; [exact O|exact Logic.I]|].
    destruct (assoc name (c_globals (cs s))) as [[]|] eqn:EG; [split; [exact O|exact Logic.I]|].
    unfold bind, GetOrDeclareFunction, bind, get. cbn [cs]. destruct (assoc name (c_functions (cs s))); [split; [exact O|exact Logic.I]|].
    rewrite EG. split; [exact O|exact Logic.I].
  - repeat t_step.
Qed.

(** ** The mutually recursive parsers *)
Definition parses (n : nat) : Prop :=
  (forall l, tc (exprL n l) anyQ) /\ (forall l v b, tc (exprLoop n l v b) anyQ) /\ tc (unary n) anyQ /\
  tc (postfix n) anyQ /\ (forall v b, tc (postfixLoop n v b) anyQ) /\ (forall a, tc (callArgs n a) anyQ) /\ tc (primary n) anyQ.
Lemma t_post_err ch A Q : (Ascii.eqb ch "+" || Ascii.eqb ch "-")%bool = true ->
  tc (@errorf _ A ("expected lvalue for postfix '" ++ fmt_c ch ++ fmt_c ch ++ "'")) Q.
Proof.
  intros H. apply orb_prop in H as [H|H]; apply Ascii.eqb_eq in H; subst ch; apply t_errorf; apply dg_plain;
    unfold plain_messages; cbn; tauto.
Qed.
Ltac t_rec ::=
  lazymatch goal with
  | |- tells _ (exprL _ _) _ => match goal with H : forall l, tells _ (exprL _ l) _ |- _ => apply H end
  | |- tells _ (exprLoop _ _ _ _) _ => match goal with H : forall l v b, tells _ (exprLoop _ l v b) _ |- _ => apply H end
  | |- tells _ (unary _) _ => eassumption
  | |- tells _ (postfix _) _ => eassumption
  | |- tells _ (postfixLoop _ _ _) _ => match goal with H : forall v b, tells _ (postfixLoop _ v b) _ |- _ => apply H end
  | |- tells _ (callArgs _ _) _ => match goal with H : forall a, tells _ (callArgs _ a) _ |- _ => apply H end
  | |- tells _ (primary _) _ => eassumption
  | |- tells _ (compoundOp _) _ => apply t_compoundOp; assumption
  | |- tells _ (primaryIdent _) _ => apply t_primaryIdent; assumption
  | |- tells _ (errorf ("expected lvalue for postfix '" ++ _)) _ => apply t_post_err; assumption
  end.
Lemma t_parse n : parses n.
Proof.
  induction n as [|n (IH1 & IH2 & IH3 & IH4 & IH5 & IH6 & IH7)];
    [unfold parses; repeat split; intros; apply t_fuel|].
  split; [|split; [|split; [|split; [|split; [|split]]]]]; intros.
  - cbn [exprL]. repeat t_step.
  - cbn [exprLoop]. repeat t_step.
    all: match goal with |- context [runeOf ?r] => destruct r; cbn [runeOf]; t_err end.
  - cbn [unary]. repeat t_step.
    all: match goal with |- context [runeOf ?r] => destruct r; cbn [runeOf]; t_err end.
  - cbn [postfix]. repeat t_step.
  - cbn [postfixLoop]. repeat t_step.
  - cbn [callArgs]. repeat t_step.
  - cbn [primary]. repeat t_step.
Qed.

Lemma t_parseExpression n : tc (parseExpression n) anyQ.
Proof. exact (proj1 (t_parse n) 15%nat). Qed.
Definition qacc (p : list ascii * bool) : Prop := Forall qc (fst p).
Lemma t_readElse e : forall acc, Forall qc acc -> tc (readElse e acc) qacc.
Proof.
  induction e as [|x e IH]; intros acc H; cbn [readElse]; [apply t_ret; exact H|].
  apply (t_bind _ _ _ qr); [apply t_rc|]. intros [er|c] Hc; [apply t_ret; exact H|].
  destruct (Ascii.eqb c x); [apply IH; constructor; auto|apply t_ret; constructor; auto].
Qed.
Lemma t_elseFollows : tc elseFollows anyQ.
Proof.
  unfold elseFollows. eapply t_bind; [apply t_readElse; constructor|]. intros (acc, ok) H. destruct ok.
  - apply (t_bind _ _ _ qr); [apply t_rc|]. intros [er|c] Hc; [apply t_ret; exact Logic.I|].
    destruct (IsLetter c || IsDigit c)%bool; [|apply t_ret; exact Logic.I].
    eapply t_bind; [apply t_unreadAll; constructor; auto|]. intros _ _. apply t_ret; exact Logic.I.
  - eapply t_bind; [apply t_unreadAll; auto|]. intros _ _. apply t_ret; exact Logic.I.
Qed.
Ltac t_rec ::=
  lazymatch goal with
  | |- tells _ (parseExpression _) _ => apply t_parseExpression
  | |- tells _ elseFollows _ => apply t_elseFollows
  end.
Lemma t_parseReturn n : tc (parseReturn n) anyQ.
Proof. unfold parseReturn. repeat t_step. Qed.
Lemma t_autoSize : tc autoSize anyQ.
Proof. unfold autoSize. repeat t_step. Qed.
Lemma t_autoLoop n : forall seen ds, tc (autoLoop n seen ds) anyQ.
Proof.
  Ltac t_rec ::=
    lazymatch goal with
    | |- tells _ autoSize _ => apply t_autoSize
    | |- tells _ (autoLoop _ _ _) _ => match goal with H : forall x y, tells _ (autoLoop _ x y) _ |- _ => apply H end
    end.
  induction n as [|n IH]; intros seen ds; cbn [autoLoop]; repeat t_step.
Qed.
Lemma t_parseAuto n : tc (parseAuto n) anyQ.
Proof.
  unfold parseAuto. eapply t_bind; [apply t_autoLoop|]. intros ds _. apply t_quiet. apply q_declareAutos.
Qed.
Lemma t_externName x : tc (externName x) anyQ.
Proof. unfold externName. repeat t_step. Qed.
Lemma t_parseExtrn n : tc (parseExtrn n) anyQ.
Proof.
  Ltac t_rec ::=
    lazymatch goal with
    | |- tells _ (externName _) _ => apply t_externName
    | |- tells _ (parseExtrn _) _ => eassumption
    end.
  induction n as [|n IH]; cbn [parseExtrn]; repeat t_step.
Qed.
Lemma t_parseGoto : tc parseGoto anyQ.
Proof. unfold parseGoto. repeat t_step. Qed.
Lemma t_caseValue : tc caseValue anyQ.
Proof. unfold caseValue. repeat t_step. Qed.
Lemma name_qc x : name_ok x -> Forall qc (rev (list_ascii_of_string x)).
Proof. intros [->|H]; [constructor|]. apply Forall_rev, qc_name, H. Qed.

Definition states (n : nat) : Prop :=
  (forall sw, tc (statement n sw) anyQ) /\ (forall sw, tc (blockLoop n sw) anyQ) /\ (forall sw, tc (keyword n sw) anyQ) /\
  tc (parseIf n) anyQ /\ tc (parseWhile n) anyQ /\ tc (parseSwitch n) anyQ /\ (forall sw, tc (parseCase n sw) anyQ).
Ltac t_rec ::=
  lazymatch goal with
  | |- tells _ (statement _ _) _ => match goal with H : forall sw, tells _ (statement _ sw) _ |- _ => apply H end
  | |- tells _ (blockLoop _ _) _ => match goal with H : forall sw, tells _ (blockLoop _ sw) _ |- _ => apply H end
  | |- tells _ (keyword _ _) _ => match goal with H : forall sw, tells _ (keyword _ sw) _ |- _ => apply H end
  | |- tells _ (parseCase _ _) _ => match goal with H : forall sw, tells _ (parseCase _ sw) _ |- _ => apply H end
  | |- tells _ (parseIf _) _ => eassumption
  | |- tells _ (parseWhile _) _ => eassumption
  | |- tells _ (parseSwitch _) _ => eassumption
  | |- tells _ (parseExpression _) _ => apply t_parseExpression
  | |- tells _ elseFollows _ => apply t_elseFollows
  | |- tells _ (parseReturn _) _ => apply t_parseReturn
  | |- tells _ (parseAuto _) _ => apply t_parseAuto
  | |- tells _ (parseExtrn _) _ => apply t_parseExtrn
  | |- tells _ parseGoto _ => apply t_parseGoto
  | |- tells _ caseValue _ => apply t_caseValue
  | |- tells _ (unreadAll _) _ => apply t_unreadAll, name_qc; assumption
  end.
Lemma t_states n : states n.
Proof.
  induction n as [|n (IH1 & IH2 & IH3 & IH4 & IH5 & IH6 & IH7)];
    [unfold states; repeat split; intros; apply t_fuel|].
  split; [|split; [|split; [|split; [|split; [|split]]]]]; intros.
  - cbn [statement]. repeat t_step.
  - cbn [blockLoop]. repeat t_step.
  - cbn [keyword]. repeat t_step.
  - cbn [parseIf]. repeat t_step.
  - cbn [parseWhile]. repeat t_step.
  - cbn [parseSwitch]. repeat t_step.
  - cbn [parseCase]. repeat t_step.
Qed.

(** ** Declarations *)
Lemma t_parseIvalConst : tc parseIvalConst anyQ.
Proof. unfold parseIvalConst. repeat t_step. Qed.
Lemma t_ivalLoop n : forall acc, tc (ivalLoop n acc) anyQ.
Proof.
  Ltac t_rec ::=
    lazymatch goal with
    | |- tells _ parseIvalConst _ => apply t_parseIvalConst
    | |- tells _ (ivalLoop _ _) _ => match goal with H : forall x, tells _ (ivalLoop _ x) _ |- _ => apply H end
    end.
  induction n as [|n IH]; intros acc; cbn [ivalLoop]; repeat t_step.
Qed.
Lemma t_parseArguments n : forall acc, tc (parseArguments n acc) anyQ.
Proof.
  Ltac t_rec ::=
    lazymatch goal with
    | |- tells _ (parseArguments _ _) _ => match goal with H : forall x, tells _ (parseArguments _ x) _ |- _ => apply H end
    end.
  induction n as [|n IH]; intros acc; cbn [parseArguments]; repeat t_step.
Qed.
Ltac t_rec ::=
  lazymatch goal with
  | |- tells _ (ivalLoop _ _) _ => apply t_ivalLoop
  | |- tells _ (parseArguments _ _) _ => apply t_parseArguments
  | |- tells _ (statement ?n ?sw) _ => exact (proj1 (t_states n) sw)
  end.
Lemma t_parseGlobal n x : tc (parseGlobal n x) anyQ.
Proof. unfold parseGlobal. repeat t_step. Qed.
Lemma t_parseVector n x : tc (parseVector n x) anyQ.
Proof. unfold parseVector. repeat t_step. Qed.
Lemma t_parseFunction n x : tc (parseFunction n x) anyQ.
Proof. unfold parseFunction. repeat t_step. Qed.
Lemma t_declaration n x : tc (declaration n x) anyQ.
Proof.
  Ltac t_rec ::=
    lazymatch goal with
    | |- tells _ (parseGlobal _ _) _ => apply t_parseGlobal
    | |- tells _ (parseVector _ _) _ => apply t_parseVector
    | |- tells _ (parseFunction _ _) _ => apply t_parseFunction
    end.
  unfold declaration. repeat t_step.
Qed.
Lemma t_ParseDeclarations n : tc (ParseDeclarations n) anyQ.
Proof.
  Ltac t_rec ::=
    lazymatch goal with
    | |- tells _ (declaration _ _) _ => apply t_declaration
    | |- tells _ (ParseDeclarations _) _ => eassumption
    end.
  induction n as [|n IH]; cbn [ParseDeclarations]; repeat t_step.
Qed.
End text.

Theorem compile_errs s f e : compile s f = Err e -> errs s f e.
Proof.
  unfold compile, compile_from. intros H.
  assert (O : oks s f (mkSt (mkLexer s f) NewCompiler)).
  { unfold oks, okl. cbn. split; [reflexivity|]. apply Forall_forall. intros c H1. left. exact H1. }
  pose proof (t_ParseDeclarations s f (enough s) _ O) as T.
  destruct (ParseDeclarations (enough s) _) as [a t|e'|]; try discriminate H.
  injection H as ->. exact T.
Qed.
Theorem compile_diagnostic s f m : compile s f = Err (Msg m) -> diagnostic s m.
Proof. exact (compile_errs s f (Msg m)). Qed.
