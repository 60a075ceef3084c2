(** * Final: what follows a wrong character has no influence on the message
    Two runs of the parser are compared: on a text and on the same text with
    something appended. They agree until the first one has seen the end of its
    text; from then on ("late") the first one cannot give a final message. *)
From Coq Require Import List Ascii String ZArith NArith Lia Bool.
From Verif Require Import Base Lexer IR Builder Expr Stmt Decl Totality FuelMono SpecDiag DiagFacts.
Import ListNotations.
Open Scope Z_scope.
Open Scope m_scope.
Open Scope list_scope.

Notation St i c := (mkSt (mkLexer i false) c).
Definition fin (e : goerr) : Prop := match e with Msg t => final_message t | _ => False end.

Definition two {A} (m : C A) (Q : A -> list ascii -> Prop) : Prop := forall i c r, no_star r ->
  match m (St i c) with
  | Ok a t => (exists i' c', t = St i' c' /\ m (St (i ++ r) c) = Ok a (St (i' ++ r) c')) \/
              (exists i' c', t = St i' c' /\ Q a i')
  | Err e => fin e -> m (St (i ++ r) c) = Err e
  | Fuel => True
  end.
Definition dead {A} (i : list ascii) (m : C A) (Q : A -> list ascii -> Prop) : Prop := forall c,
  match m (St i c) with
  | Ok a t => exists i' c', t = St i' c' /\ Q a i'
  | Err e => ~ fin e
  | Fuel => True
  end.
(** Results that are never late. *)
Definition never {A} (a : A) (i : list ascii) : Prop := False.
Definition late (l : list (list ascii)) {A} (a : A) (i : list ascii) : Prop := In i l.

(** ** Which messages are not final *)
Lemma fmt_nul c x y : (fmt_c c ++ x)%string = String NUL y -> c = NUL.
Proof. destruct c as [[] [] [] [] [] [] [] []]; vm_compute; intros H; try discriminate H; reflexivity. Qed.
Lemma fmt_eq c x y : (fmt_c c ++ x)%string = String "=" y -> c = "="%char.
Proof. destruct c as [[] [] [] [] [] [] [] []]; vm_compute; intros H; try discriminate H; reflexivity. Qed.
Lemma str_app_inj p x y : (p ++ x)%string = (p ++ y)%string -> x = y.
Proof. induction p; cbn; intros H; auto. injection H as H. auto. Qed.

Ltac nofin :=
  cbn [fin]; first [exact (fun x => x) |
  intros [(?m & ?c & HI & (HQ & HZ) & E)|[(?m & ?c & HI & (HQ & HZ) & E)|[(?c & E)|[(?c & HN & E)|[(?x & E)|HI]]]]];
  try discriminate E;
  try (unfold expectations, alternatives in HI; cbn [In] in HI; repeat (destruct HI as [<-|HI]; [try discriminate E|]); try contradiction);
  try (cbn [In] in HI; repeat (destruct HI as [HI|HI]; [discriminate HI|]); contradiction);
  try (repeat apply str_app_inj in E; symmetry in E; first [apply fmt_nul in E | apply fmt_eq in E]; contradiction) ].

(** ** Composition *)
Lemma two_bind {A B} (m : C A) (k : A -> C B) Q R : two m Q -> (forall a, two (k a) R) ->
  (forall a i, Q a i -> dead i (k a) R) -> two (bind m k) R.
Proof.
  intros H K D i c r NS. unfold bind. specialize (H i c r NS).
  destruct (m (St i c)) as [a t|e|].
  - destruct H as [(i' & c' & -> & E)|(i' & c' & -> & HQ)].
    + rewrite E. apply K; exact NS.
    + specialize (D a i' HQ c'). destruct (k a (St i' c')) as [b t|e|].
      * right. exact D.
      * intros F. destruct (D F).
      * exact Logic.I.
  - intros F. rewrite (H F). reflexivity.
  - exact Logic.I.
Qed.
Lemma two_sync {A B} (m : C A) (k : A -> C B) R : two m never -> (forall a, two (k a) R) -> two (bind m k) R.
Proof. intros H K. apply (two_bind _ _ never); auto. intros a i []. Qed.
Lemma two_weak {A} (m : C A) (Q R : A -> list ascii -> Prop) : two m Q -> (forall a i, Q a i -> R a i) -> two m R.
Proof.
  intros H K i c r NS. specialize (H i c r NS). destruct (m (St i c)); auto.
  destruct H as [H|(i' & c' & E & HQ)]; [left; exact H|right; exists i', c'; auto].
Qed.
Lemma two_never {A} (m : C A) Q : two m never -> two m Q.
Proof. intros H. eapply two_weak; [exact H|]. intros a i []. Qed.
Lemma two_ret {A} (a : A) Q : two (ret a) Q.
Proof. intros i c r NS. left. exists i, c. auto. Qed.
Lemma two_errorf {A} e Q : two (@errorf st A e) Q.
Proof. intros i c r NS _. reflexivity. Qed.
Lemma two_fail {A} e Q : two (@fail st A e) Q.
Proof. intros i c r NS _. reflexivity. Qed.
Lemma two_fuel {A} Q : two (@out_of_fuel st A) Q.
Proof. intros i c r NS. exact Logic.I. Qed.

Lemma dead_bind {A B} i (m : C A) (k : A -> C B) Q R : dead i m Q -> (forall a j, Q a j -> dead j (k a) R) -> dead i (bind m k) R.
Proof.
  intros H K c. unfold bind. specialize (H c). destruct (m (St i c)) as [a t|e|]; auto.
  destruct H as (i' & c' & -> & HQ). exact (K a i' HQ c').
Qed.
Lemma dead_weak {A} i (m : C A) (Q R : A -> list ascii -> Prop) : dead i m Q -> (forall a j, Q a j -> R a j) -> dead i m R.
Proof. intros H K c. specialize (H c). destruct (m (St i c)); auto. destruct H as (i' & c' & E & HQ). exists i', c'. auto. Qed.
Lemma dead_ret {A} i (a : A) (Q : A -> list ascii -> Prop) : Q a i -> dead i (ret a) Q.
Proof. intros H c. exists i, c. auto. Qed.
Lemma dead_errorf {A} i e Q : ~ fin (Msg e) -> dead i (@errorf st A e) Q.
Proof. intros H c. exact H. Qed.
Lemma dead_fail {A} i e Q : ~ fin e -> dead i (@fail st A e) Q.
Proof. intros H c. exact H. Qed.
Lemma dead_fuel {A} i Q : dead i (@out_of_fuel st A) Q.
Proof. intros c. exact Logic.I. Qed.

(** ** The builder: independent of the text *)
Definition indep {A} (m : C A) : Prop := forall l l' c,
  match m (mkSt l c) with
  | Ok a t => exists c2, t = mkSt l c2 /\ m (mkSt l' c) = Ok a (mkSt l' c2)
  | Err e => m (mkSt l' c) = Err e
  | Fuel => m (mkSt l' c) = Fuel
  end.
Lemma i_bind {A B} (m : C A) (k : A -> C B) : indep m -> (forall a, indep (k a)) -> indep (bind m k).
Proof.
  intros H K l l' c. unfold bind. specialize (H l l' c). destruct (m (mkSt l c)) as [a t|e|].
  - destruct H as (c2 & -> & ->). apply K.
  - rewrite H. reflexivity.
  - rewrite H. reflexivity.
Qed.
Lemma i_ret {A} (a : A) : indep (ret a). Proof. intros l l' c. exists c. auto. Qed.
Lemma i_errorf {A} e : indep (@errorf st A e). Proof. intros l l' c. reflexivity. Qed.
Lemma i_get : indep get. Proof. intros l l' c. exists c. auto. Qed.
Lemma i_modify g : indep (modify g). Proof. intros l l' c. eexists. split; reflexivity. Qed.
Lemma i_fresh : indep fresh. Proof. intros l l' c. eexists. split; reflexivity. Qed.
Lemma i_NewBlock n : indep (NewBlock n). Proof. intros l l' c. eexists. split; reflexivity. Qed.
Lemma i_nextLabelID : indep nextLabelID. Proof. intros l l' c. eexists. split; reflexivity. Qed.
Lemma two_indep {A} (m : C A) Q : indep m -> two m Q.
Proof.
  intros H i c r NS. specialize (H (mkLexer i false) (mkLexer (i ++ r) false) c). destruct (m (St i c)) as [a t|e|]; auto.
  destruct H as (c2 & -> & E). left. exists i, c2. auto.
Qed.
Ltac indep_step :=
  lazymatch goal with
  | |- indep (ret _) => apply i_ret
  | |- indep (errorf _) => apply i_errorf
  | |- indep get => apply i_get
  | |- indep (modify _) => apply i_modify
  | |- indep (bind _ _) => apply i_bind; [|intros ?]
  | |- indep (let _ := _ in _) => cbv zeta
  | |- indep (match ?x with _ => _ end) => destruct x
  | |- indep ?m => let h := eval cbv beta in m in
      match h with
      | emit _ => unfold emit | setTerm _ => unfold setTerm | SetInsertPoint _ => unfold SetInsertPoint
      | GetInsertBlock => unfold GetInsertBlock | bind_local _ _ => unfold bind_local
      | getOrCreateFunc _ => unfold getOrCreateFunc | ClearTopLevelContext => unfold ClearTopLevelContext
      | emitR _ => unfold emitR | rval _ _ => unfold rval | cmpz _ _ _ => unfold cmpz | applyCop _ _ _ => unfold applyCop
      | doCall _ _ => unfold doCall | incDec _ _ => unfold incDec | GetAddress _ => unfold GetAddress
      | GetOrCreateLabel _ => unfold GetOrCreateLabel | termIsNil => unfold termIsNil | brIfOpen _ => unfold brIfOpen
      | DeclareGlobal _ _ => unfold DeclareGlobal | DeclareGlobalWithMultipleValues _ _ => unfold DeclareGlobalWithMultipleValues
      | DeclareGlobalArray _ _ _ => unfold DeclareGlobalArray | DeclareFunction _ _ => unfold DeclareFunction
      | GetOrDeclareFunction _ => unfold GetOrDeclareFunction | EndFunction => unfold EndFunction
      | DeclareLocal _ => unfold DeclareLocal | DeclareLocalArray _ _ => unfold DeclareLocalArray
      | CreateStringConstant _ => unfold CreateStringConstant | StartFunction _ _ => unfold StartFunction
      | externName _ => unfold externName
      | fresh => apply i_fresh | NewBlock _ => apply i_NewBlock | nextLabelID => apply i_nextLabelID
      end
  end.
Lemma i_va va ps : indep (va_params va ps).
Proof. revert va. induction ps as [|p ps IH]; intros va; cbn [va_params]; repeat (first [apply IH | indep_step]). Qed.
Lemma i_switchCases id vals : indep (switchCases id vals).
Proof. induction vals as [|v r IH]; cbn [switchCases]; repeat (first [exact IH | indep_step]). Qed.
Lemma i_declareAutos ds : indep (declareAutos ds).
Proof. induction ds as [|[x z] r IH]; cbn [declareAutos]; repeat (first [exact IH | indep_step]). Qed.
Ltac is_indep := solve [repeat (first [apply i_va | apply i_switchCases | apply i_declareAutos | indep_step])].
Lemma dead_quiet {A} i (m : C A) (Q : A -> list ascii -> Prop) : quiet m -> (forall a, Q a i) -> dead i m Q.
Proof. intros H K c. destruct (H (St i c)) as (a & c2 & ->). exists i, c2. auto. Qed.

(** ** The lexer *)
Lemma two_rc : two rc (fun a i => a = inl EOF /\ i = []).
Proof.
  intros i c r NS. unfold rc, lift, tryRead. destruct i as [|x i]; cbn.
  - right. exists [], c. split; auto.
  - left. exists i, c. auto.
Qed.
Lemma two_readChar : two readChar never.
Proof.
  intros i c r NS. unfold readChar, rc, lift, tryRead, bind. destruct i as [|x i]; cbn.
  - intros [].
  - left. exists i, c. auto.
Qed.
Lemma two_unread x : two (unread x) never.
Proof. intros i c r NS. left. exists (x :: i), c. auto. Qed.
Lemma two_unreadOk x : two (unreadOk x) never.
Proof. destruct x; [apply two_ret|apply two_unread]. Qed.
Lemma two_unreadAll l : two (unreadAll l) never.
Proof. induction l as [|x l IH]; cbn [unreadAll]; [apply two_ret|]. apply two_sync; [apply two_unread|]. intros _. exact IH. Qed.

Lemma comment_loop_app n s x r : (List.length s <= n)%nat -> comment_loop s = Some x -> comment_loop (s ++ r) = Some (x ++ r).
Proof.
  revert s x; induction n as [|n IH]; intros [|c t] x N H; cbn [comment_loop List.length app] in *; try discriminate; try lia.
  destruct (Ascii.eqb c "*").
  - destruct t as [|c2 t2]; [discriminate|]. cbn [app]. destruct (Ascii.eqb c2 "/").
    + injection H as <-. reflexivity.
    + change (c2 :: t2 ++ r) with ((c2 :: t2) ++ r). apply IH; [lia|exact H].
  - apply IH; [lia|exact H].
Qed.
Lemma ws_two n : forall i r n', no_star r -> (List.length i < n)%nat -> (List.length (i ++ r) < n')%nat ->
  match whitespace_loop n (mkLexer i false) with
  | Ok _ t => (exists i', t = mkLexer i' false /\ whitespace_loop n' (mkLexer (i ++ r) false) = Ok tt (mkLexer (i' ++ r) false)) \/
              t = mkLexer [] false
  | Err e => ~ fin e
  | Fuel => True
  end.
Proof.
  induction n as [|n IH]; intros i r n' NS N N'; [lia|]. destruct n' as [|n']; [lia|].
  cbn [whitespace_loop]. unfold bind, tryRead. destruct i as [|x i].
  - right. reflexivity.
  - cbn [l_in l_fail app]. cbn [List.length] in N. rewrite <- app_comm_cons in N'. cbn [List.length] in N'.
    destruct (IsSpace x); [apply IH; auto; lia|]. destruct (Ascii.eqb x "/") eqn:EX.
    + destruct i as [|y i].
      * cbn [l_in]. unfold end_err. cbn [l_fail]. left. exists [x]. split; [reflexivity|]. cbn [app].
        destruct r as [|y r]; [reflexivity|]. cbn [l_in l_fail]. cbn in NS. destruct (Ascii.eqb y "*") eqn:EY.
        -- apply Ascii.eqb_eq in EY. contradiction.
        -- reflexivity.
      * cbn [l_in l_fail app]. cbn [List.length] in N. rewrite <- app_comm_cons in N'. cbn [List.length] in N'.
        destruct (Ascii.eqb y "*").
        -- unfold Comment. cbn [l_in l_fail]. destruct (comment_loop i) as [x2|] eqn:EC.
           ++ rewrite (comment_loop_app _ _ _ r (le_n _) EC). destruct (comment_loop_suffix _ _ _ (le_n _) EC) as (p & ->).
              rewrite !app_length in *. apply IH; auto; rewrite ?app_length; lia.
           ++ nofin.
        -- left. exists (x :: y :: i). split; reflexivity.
    + left. exists (x :: i). split; reflexivity.
Qed.
Lemma two_ws : two (lift Whitespace) (late [[]]).
Proof.
  intros i c r NS. unfold lift, Whitespace. cbn [lx cs l_in].
  pose proof (ws_two (S (List.length i)) i r (S (List.length (i ++ r))) NS ltac:(lia) ltac:(lia)) as H.
  destruct (whitespace_loop _ (mkLexer i false)) as [[] t|e|]; auto.
  - destruct H as [(i' & -> & E)| ->]; [left; exists i', c; rewrite E; auto|right; exists [], c; split; [reflexivity|left; reflexivity]].
  - intros F. destruct (H F).
Qed.
Lemma span_two s r : match snd (ident_span s) with
  | [] => True | b => ident_span (s ++ r) = (fst (ident_span s), b ++ r) end.
Proof.
  induction s as [|x s IH]; [exact Logic.I|]. cbn [ident_span app]. destruct (IsIdent x).
  - destruct (ident_span s) as (a, b). cbn [fst snd] in *. destruct b; [exact Logic.I|]. rewrite IH. reflexivity.
  - reflexivity.
Qed.
Lemma two_ident : two (lift Identifier) (late [[]]).
Proof.
  intros i c r NS. pose proof (two_ws i c r NS) as W. revert W. unfold lift, Identifier, bind. cbn [lx cs].
  destruct (Whitespace (mkLexer i false)) as [[] t|e|]; auto.
  - intros [(i' & c' & E1 & E2)|(i' & c' & E1 & E2)].
    + injection E1 as -> <-. destruct (Whitespace (mkLexer (i ++ r) false)) as [[] t2| |]; try discriminate E2. injection E2 as ->.
      cbn [l_in l_fail]. pose proof (span_two i' r) as S2. destruct (ident_span i') as (a, b). cbn [fst snd] in S2.
      destruct b as [|y b].
      * right. exists [], c. split; [reflexivity|left; reflexivity].
      * rewrite S2. left. exists (y :: b), c. auto.
    + injection E1 as -> <-. cbn [l_in l_fail]. destruct E2 as [<-|[]]; cbn. right. exists [], c. split; [reflexivity|left; reflexivity].
  - intros W F. specialize (W F). destruct (Whitespace (mkLexer (i ++ r) false)); congruence.
Qed.
Lemma number_two base s r : forall z, match snd (number_loop base z s) with
  | [] => True | b => number_loop base z (s ++ r) = (fst (number_loop base z s), b ++ r) end.
Proof.
  induction s as [|x s IH]; intros z; [exact Logic.I|]. cbn [number_loop app]. destruct (IsDigit x); [apply IH|reflexivity].
Qed.
Lemma two_number : two (lift Number) (late [[]]).
Proof.
  intros i c r NS. pose proof (two_ws i c r NS) as W. revert W. unfold lift, Number, bind. cbn [lx cs].
  destruct (Whitespace (mkLexer i false)) as [[] t|e|]; auto.
  - intros [(i' & c' & E1 & E2)|(i' & c' & E1 & E2)].
    + injection E1 as -> <-. destruct (Whitespace (mkLexer (i ++ r) false)) as [[] t2| |]; try discriminate E2. injection E2 as ->.
      cbn [l_in l_fail]. destruct i' as [|x i'].
      * intros [].
      * cbn [app]. change (x :: i' ++ r) with ((x :: i') ++ r). set (base := if Ascii.eqb x "0" then 8 else 10).
        pose proof (number_two base (x :: i') r 0) as S2. destruct (number_loop base 0 (x :: i')) as (z, b). cbn [fst snd] in S2.
        destruct b as [|y b].
        -- right. exists [], c. split; [reflexivity|left; reflexivity].
        -- rewrite S2. left. exists (y :: b), c. auto.
    + injection E1 as -> <-. destruct E2 as [<-|[]]; intros [].
  - intros W F. specialize (W F). destruct (Whitespace (mkLexer (i ++ r) false)); congruence.
Qed.
(** Lexer functions that fail at the end. *)
Definition twol {A} (m : L A) : Prop := forall i f r f',
  match m (mkLexer i f) with
  | Ok a t => exists i', t = mkLexer i' f /\ m (mkLexer (i ++ r) f') = Ok a (mkLexer (i' ++ r) f')
  | Err e => fin e -> m (mkLexer (i ++ r) f') = Err e
  | Fuel => True
  end.
Lemma two_lift {A} (m : L A) : twol m -> two (lift m) never.
Proof.
  intros H i c r NS. unfold lift. cbn [lx cs]. specialize (H i false r false). destruct (m (mkLexer i false)) as [a t|e|]; auto.
  - destruct H as (i' & -> & E). left. exists i', c. rewrite E. auto.
  - intros F. rewrite (H F). reflexivity.
Qed.
Lemma twol_bind {A B} (m : L A) (k : A -> L B) : twol m -> (forall a, twol (k a)) -> twol (bind m k).
Proof.
  intros H K i f r f'. unfold bind. specialize (H i f r f'). destruct (m (mkLexer i f)) as [a t|e|]; auto.
  - destruct H as (i' & -> & E). rewrite E. apply K.
  - intros F. rewrite (H F). reflexivity.
Qed.
Lemma twol_ret {A} (a : A) : twol (ret a).
Proof. intros i f r f'. exists i. auto. Qed.
Lemma twol_errorf {A} e : twol (@errorf lexer A e).
Proof. intros i f r f' _. reflexivity. Qed.
Lemma twol_read {A} (k : goerr + ascii -> L A) : (forall x, twol (k (inr x))) ->
  (forall e l, e = EOF \/ e = IOErr -> exists e', k (inl e) l = Err e' /\ ~ fin e') -> twol (bind tryRead k).
Proof.
  intros H K i f r f'. unfold bind, tryRead. destruct i as [|x i]; cbn [l_in l_fail app].
  - destruct (K (end_err (mkLexer [] f)) (mkLexer [] f)) as (e' & E & N); [unfold end_err; destruct f; auto|].
    rewrite E. intros F. destruct (N F).
  - apply H.
Qed.
Lemma twol_Escape : twol Escape.
Proof.
  apply twol_read.
  - intros x. repeat match goal with |- twol (if ?b then _ else _) => destruct b end; try apply twol_ret. apply twol_errorf.
  - intros e l [->| ->]; eexists; (split; [reflexivity|nofin]).
Qed.
Lemma twol_char i : forall v, twol (character_loop i v).
Proof.
  induction i as [|i IH]; intros v; cbn [character_loop]; apply twol_read.
  - intros x. destruct (Ascii.eqb x QUOTE); [apply twol_ret|apply twol_errorf].
  - intros e l _. eexists. split; [reflexivity|nofin].
  - intros x. destruct (Ascii.eqb x QUOTE); [apply twol_ret|]. apply twol_bind; [|intros; apply IH].
    destruct (Ascii.eqb x "*"); [apply twol_Escape|apply twol_ret].
  - intros e l [->| ->]; eexists; (split; [reflexivity|nofin]).
Qed.
Lemma twol_Character : twol Character. Proof. apply twol_char. Qed.
Lemma string_two n : forall acc i f r f' n', (List.length i < n)%nat -> (List.length (i ++ r) < n')%nat ->
  match string_loop n acc (mkLexer i f) with
  | Ok a t => exists i', t = mkLexer i' f /\ string_loop n' acc (mkLexer (i ++ r) f') = Ok a (mkLexer (i' ++ r) f')
  | Err e => fin e -> string_loop n' acc (mkLexer (i ++ r) f') = Err e
  | Fuel => True
  end.
Proof.
  induction n as [|n IH]; intros acc i f r f' n' N N'; [lia|]. destruct n' as [|n']; [lia|].
  cbn [string_loop]. unfold bind at 1 3 5, tryRead. destruct i as [|x i].
  - cbn [l_in]. unfold end_err. cbn [l_fail]. destruct f; cbn [fail errorf]; [intros []|]. intros F. exfalso. revert F. nofin.
  - cbn [l_in l_fail app]. cbn [List.length] in N. rewrite <- app_comm_cons in N'. cbn [List.length] in N'.
    destruct (Ascii.eqb x DQUOTE); [exists i; auto|].
    unfold bind.
    assert (T : twol (if Ascii.eqb x "*" then Escape else ret x)) by (destruct (Ascii.eqb x "*"); [apply twol_Escape|apply twol_ret]).
    assert (G : forall l, match (if Ascii.eqb x "*" then Escape else ret x) l with Ok _ t => (List.length (l_in t) <= List.length (l_in l))%nat | _ => True end).
    { intros l. destruct (Ascii.eqb x "*"); [|cbn; lia]. unfold Escape, bind, tryRead. destruct (l_in l); [exact Logic.I|].
      repeat match goal with |- context [if ?b then _ else _] => destruct b end; cbn; auto with arith. }
    specialize (T i f r f'). pose proof (G (mkLexer i f)) as G1. pose proof (G (mkLexer (i ++ r) f')) as G2.
    destruct ((if Ascii.eqb x "*" then Escape else ret x) (mkLexer i f)) as [a t|e|]; auto.
    + destruct T as (i' & -> & E). rewrite E in *. cbn [l_in] in *. apply IH; lia.
    + intros F. rewrite (T F). reflexivity.
Qed.
Lemma twol_String : twol String_.
Proof. intros i f r f'. unfold String_. cbn [l_in]. apply string_two; lia. Qed.
Lemma twol_ExpectChar x m : In m expectations -> twol (ExpectChar x m).
Proof.
  intros H. apply twol_read.
  - intros y. destruct (Ascii.eqb y x); [apply twol_ret|apply twol_errorf].
  - intros e l [->| ->]; eexists; (split; [reflexivity|]); [|nofin].
    unfold expectations in H; cbn [In] in H. repeat (destruct H as [<-|H]; [nofin|]). contradiction.
Qed.
Lemma two_identOr m : ~ fin (Msg m) -> two (identOr m) (late [[]]).
Proof.
  intros N i c r NS. unfold identOr. pose proof (two_ident i c r NS) as H.
  destruct (lift Identifier (St i c)) as [a t|e|]; [|intros F; destruct (N F)|exact Logic.I].
  destruct a as [|y a]; [intros F; destruct (N F)|].
  destruct H as [(i' & c' & -> & E)|H]; [|right; exact H].
  left. exists i', c'. rewrite E. auto.
Qed.
Lemma two_liftOr_never {A} m (l : L A) : ~ fin (Msg m) -> twol l -> two (liftOr m l) never.
Proof.
  intros N H i c r NS. unfold liftOr. pose proof (two_lift _ H i c r NS) as T.
  destruct (lift l (St i c)) as [a t|e|]; [|intros F; destruct (N F)|exact Logic.I].
  destruct T as [(i' & c' & -> & E)|(i' & c' & _ & [])]. left. exists i', c'. rewrite E. auto.
Qed.
Lemma two_liftOr_number m : ~ fin (Msg m) -> two (liftOr m Number) (late [[]]).
Proof.
  intros N i c r NS. unfold liftOr. pose proof (two_number i c r NS) as T.
  destruct (lift Number (St i c)) as [a t|e|]; [|intros F; destruct (N F)|exact Logic.I].
  destruct T as [(i' & c' & -> & E)|T]; [|right; exact T]. left. exists i', c'. rewrite E. auto.
Qed.

(** ** Late states *)
Definition equal : list ascii := ["="%char].
Definition equal2 : list ascii := ["="; "="]%char.
Definition plus : list ascii := ["+"%char].
Definition minus : list ascii := ["-"%char].
Definition bang : list ascii := ["!"%char].
Definition e1 : list ascii := ["e"%char].
Definition e2 : list ascii := ["e"; "l"]%char.
Definition e3 : list ascii := ["e"; "l"; "s"]%char.

Lemma d_ws i : In i [[]; equal; equal2; plus; minus; bang; e1; e2; e3] -> dead i (lift Whitespace) (fun _ j => j = i).
Proof.
  intros H c. cbn [In] in H. repeat (destruct H as [<-|H]); try contradiction; eexists _, c; split; reflexivity.
Qed.
Lemma d_ident_nil : dead [] (lift Identifier) (fun x j => x = EmptyString /\ j = []).
Proof. intros c. exists [], c. auto. Qed.
Lemma d_ident_e i : In i [e1; e2; e3] -> dead i (lift Identifier) (fun x j => x = string_of_list_ascii i /\ j = []).
Proof. intros H c. cbn [In] in H. repeat (destruct H as [<-|H]); try contradiction; exists [], c; auto. Qed.
Lemma d_number_nil : dead [] (lift Number) never.
Proof. intros c. intros []. Qed.
Lemma d_expect_nil x m : In m expectations -> dead [] (lift (ExpectChar x m)) never.
Proof.
  intros H c. unfold lift, ExpectChar, bind, tryRead, end_err. cbn [lx l_in l_fail].
  unfold expectations in H; cbn [In] in H. repeat (destruct H as [<-|H]; [nofin|]). contradiction.
Qed.
Lemma d_expect_eq x m : In m expectations -> Ascii.eqb "=" x = false -> dead equal (lift (ExpectChar x m)) never.
Proof.
  intros H N c. unfold lift, ExpectChar, bind, tryRead, errorf. cbn [lx l_in l_fail equal]. rewrite N.
  unfold expectations in H; cbn [In] in H. repeat (destruct H as [<-|H]; [nofin|]); contradiction.
Qed.
Lemma d_rc_nil : dead [] rc (fun a j => a = inl EOF /\ j = []).
Proof. intros c. exists [], c. auto. Qed.
Lemma d_rc_cons x i : dead (x :: i) rc (fun a j => a = inr x /\ j = i).
Proof. intros c. exists i, c. auto. Qed.
Lemma d_readChar_nil : dead [] readChar never.
Proof. intros c. intros []. Qed.
Lemma d_readChar_cons x i : dead (x :: i) readChar (fun a j => a = x /\ j = i).
Proof. intros c. exists i, c. auto. Qed.
Lemma d_unread x i : dead i (unread x) (fun _ j => j = x :: i).
Proof. intros c. exists (x :: i), c. auto. Qed.
Lemma d_identOr m : ~ fin (Msg m) -> dead [] (identOr m) never.
Proof. intros N c. exact N. Qed.
Lemma d_liftOr_nil m : ~ fin (Msg m) -> dead [] (liftOr m Number) never.
Proof. intros N c. exact N. Qed.
Lemma d_externName i x : dead i (externName x) (fun _ j => j = i).
Proof.
  intros c. unfold externName, bind, get. cbn [cs].
  destruct (findGlobalByName c x); [eexists _, _; split; reflexivity|].
  destruct (findFuncByName c x); [unfold errorf; nofin|].
  destruct (mem x (c_used c)); [unfold errorf; nofin|]. eexists _, _; split; reflexivity.
Qed.

Lemma two_assoc {A B D} (m : C A) (g : A -> C B) (k : B -> C D) Q : two (bind m (fun a => bind (g a) k)) Q -> two (bind (bind m g) k) Q.
Proof.
  intros H i c r NS. specialize (H i c r NS). revert H. unfold bind.
  destruct (m (St i c)) as [a t|e|], (m (St (i ++ r) c)) as [a2 t2|e2'|]; auto.
Qed.
Lemma dead_assoc {A B D} i (m : C A) (g : A -> C B) (k : B -> C D) Q : dead i (bind m (fun a => bind (g a) k)) Q -> dead i (bind (bind m g) k) Q.
Proof.
  intros H c. specialize (H c). revert H. unfold bind. destruct (m (St i c)) as [a t|e|]; auto.
Qed.
